(** C87: what the eigenvalue routine and the inversion routine may decide. *)

From Coq Require Import String Reals Lra Sorted.
From Coq Require Import Lia ZifyBool ZifyNat.
From Verif Require Import PyBase PyFacts Text Compat SphericalSpec Spherical SphericalFacts Matrix RadialMESpec RadialMEFacts IdFacts PropsCGSO3
  FullLabels FullLabelsFacts PropsFullLabels
  Operators FullOps PropsHistory FullSpace FullSpaceFacts PropsFullSpace Settings PropsSettings Display DisplayFacts PropsDisplay PropsDriver
  PropsOscillator RadialOps Spectrum PropsCode RadialME RadialWords RadialSums PropsRadialME PropsFullOps Ritz PropsRitz PropsCommutator PropsAmplitude Solver.
Open Scope Z_scope.
Ltac Zify.zify_post_hook ::= Z.div_mod_to_equations.

(** ** Statements *)

(** Two runs of [ACM_ScaleOrAdapt] with the same arguments and settings, on
    machines whose eigenvalue routine, inversion routine and uninitialised memory
    differ. *)
Record machine := mkMachine { m_eigh : mat R -> res (list R * mat R); m_inv : mat R -> res (mat R); m_junk : Z -> Z -> R }.
Definition sound (m : machine) : Prop := routine_shapes (m_eigh m) (m_inv m) /\ eigh_sound (m_eigh m) /\ inv_sound (m_inv m).

Definition run_on flt RP CG (m : machine) op an lb nu_min nu_max v_min v_max fit_eig fit_rat L_min L_max s :=
  ACM_ScaleOrAdapt flt (code_matrices RP CG) (m_eigh m) (m_inv m) (m_junk m) op an lb nu_min nu_max v_min v_max fit_eig fit_rat L_min L_max s.

(** The squared matrix elements between all states of energy x1 and angular
    momentum L1 and all states of energy x2 and angular momentum L2. *)
Definition level_strength (M : block_array) (start : Z -> Z) (L1 : Z) (vals1 : list R) (x1 : R) (L2 : Z) (vals2 : list R) (x2 : R) : R :=
  total (fun k1 => total (fun k2 =>
    if Req_EM_T (nth (Z.to_nat k1) vals1 0%R) x1 then
      if Req_EM_T (nth (Z.to_nat k2) vals2 0%R) x2 then (element M start L1 (k1 + 1) L2 (k2 + 1) ^ 2)%R else 0%R
    else 0%R) (zlen vals2)) (zlen vals1).

(** The n-th level occurs once. *)
Definition occurs_once (vals : list R) (n : Z) : Prop :=
  1 <= n <= zlen vals /\ count_occ Req_EM_T vals (nth (Z.to_nat (n - 1)) vals 0%R) = 1%nat.

(** A rate that ignores the sign of the matrix element. *)
Definition ignores_sign (f : mel_fun) : Prop := forall am L1 L2 x, f am L1 L2 (- x)%R = f am L1 L2 x.

(** ** Levels *)

Section Dig.
  Context {A : Type}.
  Variable RepX : Z -> option Z -> res (mat A).
  Variables E E' : mat A -> res (list A * mat A).
  Variable tame : bool.
  Variables nu_min nu_max v_min v_max : Z.
  Hypothesis HE : forall M v P v' P', E M = Ok (v, P) -> E' M = Ok (v', P') -> v = v'.

  Lemma tame_same : forall Ls ev eb eb' Lv r1 r2 r3 r1' r2' r3',
    dig_tame RepX E v_min v_max Ls (ev, eb, Lv) = Ok (r1, r2, r3) -> dig_tame RepX E' v_min v_max Ls (ev, eb', Lv) = Ok (r1', r2', r3') -> r1 = r1' /\ r3 = r3'.
  Proof.
    induction Ls as [|L Ls IH]; intros ev eb eb' Lv r1 r2 r3 r1' r2' r3' H H'; cbn [dig_tame] in H, H'.
    - injection H as <- <- <-. injection H' as <- <- <-. auto.
    - apply bind_ok in H. destruct H as (d & Ed & H). rewrite Ed in H'. cbn [bind] in H'. destruct (0 <? d); [|eapply IH; eassumption].
      apply bind_ok in H. destruct H as (D & ED & H). rewrite ED in H'. cbn [bind] in H'.
      apply bind_ok in H. destruct H as ([v P] & EE & H). apply bind_ok in H'. destruct H' as ([v' P'] & EE' & H').
      rewrite <- (HE _ _ _ _ _ EE EE') in H'. eapply IH; eassumption.
  Qed.
  Lemma full_same rep d0 : forall Ls st ev eb eb' Lv r1 r2 r3 r1' r2' r3',
    dig_full E v_min v_max rep d0 Ls st (ev, eb, Lv) = Ok (r1, r2, r3) -> dig_full E' v_min v_max rep d0 Ls st (ev, eb', Lv) = Ok (r1', r2', r3') -> r1 = r1' /\ r3 = r3'.
  Proof.
    induction Ls as [|L Ls IH]; intros st ev eb eb' Lv r1 r2 r3 r1' r2' r3' H H'; cbn [dig_full] in H, H'.
    - injection H as <- <- <-. injection H' as <- <- <-. auto.
    - apply bind_ok in H. destruct H as (d & Ed & H). rewrite Ed in H'. cbn [bind] in H'. destruct (0 <? d); [|eapply IH; eassumption].
      apply bind_ok in H. destruct H as ([v P] & EE & H). apply bind_ok in H'. destruct H' as ([v' P'] & EE' & H').
      rewrite <- (HE _ _ _ _ _ EE EE') in H'. eapply IH; eassumption.
  Qed.
  Lemma dig_same L_min L_max r1 r2 r3 r1' r2' r3' :
    DigXspace RepX E tame nu_min nu_max v_min v_max L_min L_max = Ok (r1, r2, r3) -> DigXspace RepX E' tame nu_min nu_max v_min v_max L_min L_max = Ok (r1', r2', r3') ->
    r1 = r1' /\ r3 = r3'.
  Proof.
    unfold DigXspace. intros H H'.
    apply bind_ok in H. destruct H as (u1 & E1 & H). rewrite E1 in H'. cbn [bind] in H'.
    apply bind_ok in H. destruct H as (u2 & E2 & H). rewrite E2 in H'. cbn [bind] in H'.
    apply bind_ok in H. destruct H as (u3 & E3 & H). rewrite E3 in H'. cbn [bind] in H'.
    destruct tame; [eapply tame_same; eassumption|].
    apply bind_ok in H. destruct H as (rep & E4 & H). rewrite E4 in H'. cbn [bind] in H'. eapply full_same; eassumption.
  Qed.
End Dig.

Lemma fiddle_same eigh eigh' : eigh_sound eigh -> eigh_sound eigh' -> forall M v P v' P',
  Eigenfiddle eigh M = Ok (v, P) -> Eigenfiddle eigh' M = Ok (v', P') -> v = v'.
Proof.
  intros S S' M v P v' P' E E'. unfold Eigenfiddle in E, E'. destruct (nrows M =? ncols M) eqn:Sq; [|discriminate]. cbn [negb raise_if bind] in E, E'.
  set (A := mscale _ _) in *.
  assert (SA : nrows A = ncols A) by (cbn; lia).
  assert (SY : forall i j, 0 <= i < nrows A -> 0 <= j < nrows A -> ent A i j = ent A j i) by (intros i j _ _; cbn; lra).
  apply (same_levels A v P v' P'); auto.
Qed.

(** ** Reports *)

(** Two arrays with the same blocks and the same elements but for signs. *)
Definition alike (M M' : block_array) : Prop :=
  snd M = snd M' /\ (nrows (fst M) =? 0) = (nrows (fst M') =? 0) /\
  forall L1 L2, In L1 (fs_Lvals (snd M)) -> In L2 (fs_Lvals (snd M)) -> exists B B',
    get_block (fst M) (snd M) L2 L1 = Ok B /\ get_block (fst M') (snd M') L2 L1 = Ok B' /\ nrows B = nrows B' /\ ncols B = ncols B' /\
    forall i j, 0 <= i < nrows B -> 0 <= j < ncols B -> ent B i j = ent B' i j \/ ent B i j = (- ent B' i j)%R.

Lemma get_alike (B B' : mat R) i j : nrows B = nrows B' -> ncols B = ncols B' ->
  (forall i j, 0 <= i < nrows B -> 0 <= j < ncols B -> ent B i j = ent B' i j \/ ent B i j = (- ent B' i j)%R) ->
  (exists x x', np_get B i j = Ok x /\ np_get B' i j = Ok x' /\ (x = x' \/ x = (- x')%R)) \/ (exists e, np_get B i j = Raise e /\ np_get B' i j = Raise e).
Proof.
  intros N C H. unfold np_get, np_index. rewrite <- N, <- C.
  destruct ((0 <=? (if i <? 0 then i + nrows B else i)) && ((if i <? 0 then i + nrows B else i) <? nrows B)) eqn:B1; [|right; eexists; split; reflexivity]. cbn [bind].
  destruct ((0 <=? (if j <? 0 then j + ncols B else j)) && ((if j <? 0 then j + ncols B else j) <? ncols B)) eqn:B2; [|right; eexists; split; reflexivity]. cbn [bind].
  left. do 2 eexists. split; [reflexivity|]. split; [reflexivity|]. apply H; destruct (_ <? 0); lia.
Qed.

Section Shows.
  Variable flt : text -> R -> text.
  Variables (M M' : block_array) (fn : mel_fun).
  Hypothesis AL : alike M M'.
  Hypothesis EV : ignores_sign fn.

  Lemma fn_alike am L1 L2 x x' : x = x' \/ x = (- x')%R -> fn am L1 L2 x = fn am L1 L2 x'.
  Proof. intros [-> | ->]; [reflexivity|apply EV]. Qed.

  Lemma row_same s f2 toshow scale L1 L2 n2 : Show_Mels_Row flt s M f2 toshow fn scale L1 L2 n2 = Show_Mels_Row flt s M' f2 toshow fn scale L1 L2 n2.
  Proof.
    destruct AL as (A1 & _ & A3). unfold Show_Mels_Row. rewrite <- A1.
    destruct (negb _ || negb _) eqn:D; [reflexivity|]. apply orb_false_iff in D. destruct D as [D1 D2]. apply negb_false_iff in D1, D2. rewrite mem_In in D1, D2.
    destruct (A3 L1 L2 D1 D2) as (B & B' & E & E' & N & C & H). rewrite <- A1 in E'. rewrite E, E'.
    apply FunctionalExtensionality.functional_extensionality. intros z. rewrite (pbind_ok B), (pbind_ok B'). cbv zeta. rewrite <- N, <- C.
    destruct ((nrows B <? n2) || (ncols B =? 0)); [reflexivity|].
    match goal with |- pbind (praise (mapM ?F ?l)) _ z = pbind (praise (mapM ?G ?l)) _ z => assert (ME : F = G) end.
    { apply FunctionalExtensionality.functional_extensionality. intros n1.
      destruct (get_alike B B' (n2 - 1) (n1 - 1) N C H) as [(x & x' & -> & -> & XX) | (e & -> & ->)]; [|reflexivity]. cbn [bind]. now rewrite (fn_alike _ _ _ _ _ XX). }
    rewrite ME. reflexivity.
  Qed.

  Lemma mel_same s f1 scale L1 L2 n1 n2 : show_mel flt s M f1 fn scale L1 L2 n1 n2 = show_mel flt s M' f1 fn scale L1 L2 n1 n2.
  Proof.
    destruct AL as (A1 & _ & A3). unfold show_mel. rewrite <- A1.
    destruct (mem L1 _ && mem L2 _) eqn:D; [|reflexivity]. apply andb_true_iff in D. destruct D as [D1 D2]. rewrite mem_In in D1, D2.
    destruct (A3 L1 L2 D1 D2) as (B & B' & E & E' & N & C & H). rewrite <- A1 in E'. rewrite E, E'.
    apply FunctionalExtensionality.functional_extensionality. intros z. rewrite (pbind_ok B), (pbind_ok B'). rewrite <- N, <- C.
    destruct ((0 <? n1) && (n1 <=? ncols B) && (0 <? n2) && (n2 <=? nrows B)); [|reflexivity].
    destruct (get_alike B B' (n2 - 1) (n1 - 1) N C H) as [(x & x' & -> & -> & XX) | (e & -> & ->)]; [|reflexivity].
    unfold pbind, praise. now rewrite (fn_alike _ _ _ _ _ XX).
  Qed.

  Lemma rows_same s f2 toshow scale L1 L2 l : rows_from flt s M f2 toshow fn scale L1 L2 l = rows_from flt s M' f2 toshow fn scale L1 L2 l.
  Proof.
    induction l as [|n l IH]; [reflexivity|]. cbn [rows_from]. rewrite row_same. f_equal. apply FunctionalExtensionality.functional_extensionality. intros r. now rewrite IH.
  Qed.
  Lemma all_rows_same s f2 toshow scale L2 : Show_Mels_Rows flt s M f2 toshow fn scale L2 = Show_Mels_Rows flt s M' f2 toshow fn scale L2.
  Proof. unfold Show_Mels_Rows. f_equal. apply FunctionalExtensionality.functional_extensionality. intros L1. apply rows_same. Qed.
  Lemma steps_same s f1 scale k : forall L1 L2 n1 n2 m, mel_steps flt s M f1 fn scale k L1 L2 n1 n2 m = mel_steps flt s M' f1 fn scale k L1 L2 n1 n2 m.
  Proof. induction k as [|k IH]; intros L1 L2 n1 n2 m; [reflexivity|]. cbn [mel_steps]. now rewrite mel_same, IH. Qed.
  Lemma quintet_same s f1 scale L1 L2 n1 n2 m : show_quintet flt s M f1 fn scale L1 L2 n1 n2 m = show_quintet flt s M' f1 fn scale L1 L2 n1 n2 m.
  Proof.
    unfold show_quintet. rewrite <- (proj1 AL). destruct (_ || _); [reflexivity|]. destruct (0 <? m).
    - f_equal. apply FunctionalExtensionality.functional_extensionality. intros top. f_equal. apply FunctionalExtensionality.functional_extensionality. intros c. apply steps_same.
    - destruct (m <? 0); [|apply steps_same]. f_equal. apply FunctionalExtensionality.functional_extensionality. intros c. apply steps_same.
  Qed.
  Lemma designator_same s f1 f2 toshow scale d : show_designator flt s M f1 f2 toshow fn scale d = show_designator flt s M' f1 f2 toshow fn scale d.
  Proof.
    unfold show_designator. destruct d as [|L1 [|L2 rest]].
    - rewrite <- (proj1 AL). f_equal. apply FunctionalExtensionality.functional_extensionality. intros L. apply all_rows_same.
    - now rewrite all_rows_same.
    - destruct (5 <? _); [reflexivity|]. destruct (_ || _); [reflexivity|].
      destruct rest as [|a [|b [|c [|d rest]]]]; rewrite ?rows_same, ?row_same, ?mel_same, ?quintet_same; reflexivity.
  Qed.
  Lemma mels_same lst toshow scale fm desg : Show_Mels flt M lst toshow fn scale fm desg = Show_Mels flt M' lst toshow fn scale fm desg.
  Proof.
    unfold Show_Mels. destruct lst as [|d l]; [reflexivity|]. rewrite <- (proj1 (proj2 AL)). f_equal.
    apply FunctionalExtensionality.functional_extensionality. intros _. f_equal. apply FunctionalExtensionality.functional_extensionality. intros s. f_equal.
    apply FunctionalExtensionality.functional_extensionality. intros _. f_equal. apply FunctionalExtensionality.functional_extensionality. intros f1. f_equal.
    apply FunctionalExtensionality.functional_extensionality. intros f2. f_equal. apply FunctionalExtensionality.functional_extensionality. intros e. apply designator_same.
  Qed.
End Shows.

Lemma fit_same M M' Lv s : alike M M' -> fs_Lvals (snd M) = Lv -> ignores_sign (g_rat_fun s) -> fit_rates M Lv s = fit_rates M' Lv s.
Proof.
  intros (A1 & _ & A3) EL EV. unfold fit_rates. unfold pbind, pget, praise.
  destruct (mem (g_rat_L1 s) Lv) eqn:D1; [|reflexivity]. destruct (mem (g_rat_L2 s) Lv) eqn:D2; [|reflexivity].
  rewrite mem_In in D1, D2. rewrite <- EL in D1, D2.
  destruct (A3 _ _ D1 D2) as (B & B' & E & E' & N & C & H). rewrite E, E'. cbn [negb raise_if].
  destruct (get_alike B B' (g_rat_2dx s - 1) (g_rat_1dx s - 1) N C H) as [(x & x' & F & F' & XX) | (e & F & F')]; rewrite F, F'; [|reflexivity].
  now rewrite (fn_alike _ EV _ _ _ _ _ XX).
Qed.

Lemma once (x : R) : forall l i j, count_occ Req_EM_T l x = 1%nat -> nth_error l i = Some x -> nth_error l j = Some x -> i = j.
Proof.
  induction l as [|y l IH]; intros i j C Hi Hj; [discriminate|]. cbn [count_occ] in C. destruct (Req_EM_T y x) as [->|N].
  - assert (C0 : ~ In x l) by (apply (count_occ_not_In Req_EM_T); lia).
    destruct i as [|i]; [|cbn in Hi; apply nth_error_In in Hi; contradiction]. destruct j as [|j]; [reflexivity|cbn in Hj; apply nth_error_In in Hj; contradiction].
  - destruct i as [|i]; [cbn in Hi; congruence|]. destruct j as [|j]; [cbn in Hj; congruence|]. f_equal. now apply IH.
Qed.
Lemma once_simple vals n : occurs_once vals n -> simple_level vals (n - 1).
Proof.
  intros (H & C) j Hj E. assert (Z.to_nat j = Z.to_nat (n - 1)); [|lia]. unfold zlen in *.
  apply (once (nth (Z.to_nat (n - 1)) vals 0%R) vals); [exact C| |].
  - rewrite <- E. apply nth_error_nth'. lia.
  - apply nth_error_nth'. lia.
Qed.
Lemma nodup_once vals n : NoDup vals -> 1 <= n <= zlen vals -> occurs_once vals n.
Proof.
  intros ND H. split; [exact H|]. unfold zlen in H. apply NoDup_count_occ'; [exact ND|]. apply nth_In. lia.
Qed.

Lemma rescales_eig_stage flt fe s ev Lv : rescales (eig_stage flt fe s ev Lv).
Proof.
  unfold eig_stage. destruct (0 <? g_eig_num s); [|apply rescales_keeps, keeps_pret].
  apply rescales_bind; [destruct (0 <? fe); [apply rescales_fit_eig|apply rescales_keeps, keeps_pret]|intros _].
  apply rescales_bind; [apply rescales_keeps, keeps_Show_Eigs|intros; apply rescales_keeps, keeps_pret].
Qed.

(** ** Two runs *)

Section Runs.
  Variable flt : text -> R -> text.
  Variable RP : list rsym -> R -> R -> Z -> Z -> Z -> Z -> res (mat R).
  Variable CG : Z -> Z -> Z -> Z -> Z -> Z -> Z -> Z -> Z -> res R.
  Variables (ham_op : OperatorSum) (an lb : R) (nu_min nu_max v_min v_max fe fr L_min : Z) (L_max : option Z) (s : settings).
  Let RepX := code_matrices RP CG.
  Let run m := run_on flt RP CG m ham_op an lb nu_min nu_max v_min v_max fe fr L_min L_max s.
  Let digs m := dig RepX (m_eigh m) ham_op an lb nu_min nu_max v_min v_max s L_min L_max.
  Let amps m ebs Lv := amp_stage RepX (m_inv m) an lb nu_min nu_max v_min v_max s ebs Lv.

  (** Fitting and display of transitions. *)
  Definition shows (M : block_array) (Lv : list Z) : prog unit :=
    run! (if 0 <? fr then fit_rates M Lv else pret tt) ;;
    run! Show_Rats flt M (Some (g_rat_lst s)) (Some (g_rat_num s)) ;;
    Show_Amps flt M (Some (g_amp_lst s)) (Some (g_amp_num s)).

  Lemma run_inv m ev tr Lv s' o : run m = (Ok (ev, tr, Lv), s', o) ->
    exists ebs s1 o1 o2, digs m = Ok (ev, ebs, Lv) /\ eig_stage flt fe s ev Lv s = (Ok tt, s1, o1) /\ o = o1 ++ o2 /\
      match tr with
      | None => (0 <? zlen (g_rat_lst s)) || (0 <? zlen (g_amp_lst s)) = false /\ s' = s1 /\ o2 = []
      | Some M => (0 <? zlen (g_rat_lst s)) || (0 <? zlen (g_amp_lst s)) = true /\
          exists a fs, amps m ebs Lv = Ok (a, fs) /\ M = (known (m_junk m) a, fs) /\ shows M Lv s1 = (Ok tt, s', o2)
      end.
  Proof.
    intros E. unfold run, run_on in E. rewrite run_stages in E.
    apply pbind_inv in E. destruct E as [(x & s0 & o0 & o1 & E0 & E & ->) | (e & _ & X)]; [|discriminate].
    unfold praise in E0. injection E0 as E0 <- <-. destruct x as [[ev0 ebs] Lv0].
    apply bind_ok in E0. destruct E0 as ([] & EC & ED).
    apply pbind_inv in E. destruct E as [([] & s1 & o1' & o2 & E1 & E & ->) | (e & _ & X)]; [|discriminate].
    apply pbind_inv in E. destruct E as [(tr0 & s2 & o3 & o4 & E2 & E & ->) | (e & _ & X)]; [|discriminate].
    unfold pret in E. injection E as -> -> -> -> <-. exists ebs, s1, o1', o3. split; [exact ED|]. split; [exact E1|]. split; [cbn [app]; now rewrite app_nil_r|].
    unfold rat_stage in E2. destruct (_ || _) in E2 |- *; [|unfold pret in E2; injection E2 as <- <- <-; auto].
    apply pbind_inv in E2. destruct E2 as [([a fs] & s3 & o5 & o6 & E3 & E2 & ->) | (e & _ & X)]; [|discriminate].
    unfold praise in E3. injection E3 as EA <- <-. cbv zeta in E2.
    apply pbind_inv in E2. destruct E2 as [([] & s4 & o7 & o8 & E4 & E2 & ->) | (e & _ & X)]; [|discriminate].
    apply pbind_inv in E2. destruct E2 as [([] & s5 & o9 & o10 & E5 & E2 & ->) | (e & _ & X)]; [|discriminate].
    apply pbind_inv in E2. destruct E2 as [([] & s6 & o11 & o12 & E6 & E2 & ->) | (e & _ & X)]; [|discriminate].
    unfold pret in E2. injection E2 as <- <- <-. split; [reflexivity|]. exists a, fs. split; [exact EA|]. split; [reflexivity|].
    unfold shows, pbind. rewrite E4, E5, E6. rewrite app_nil_r. reflexivity.
  Qed.

  (** The levels, the angular momenta, the printed levels and the fitted energy
      scale are those of the Hamiltonian's matrices: with the same inputs, another
      eigenvalue routine gives the same; and all else too if no transitions are asked for. *)
  Theorem C87_levels : forall m m' ev tr Lv s' o ev' tr' Lv' s'' o',
    eigh_sound (m_eigh m) -> eigh_sound (m_eigh m') ->
    run m = (Ok (ev, tr, Lv), s', o) -> run m' = (Ok (ev', tr', Lv'), s'', o') ->
    ev = ev' /\ Lv = Lv' /\ g_eig_sft s' = g_eig_sft s'' /\
    (tr = None <-> tr' = None) /\ (tr = None -> s' = s'' /\ o = o').
  Proof.
    intros m m' ev tr Lv s' o ev' tr' Lv' s'' o' S S' E E'.
    assert (Keep : forall m ev tr Lv s' o, run m = (Ok (ev, tr, Lv), s', o) -> exists s1 o1, eig_stage flt fe s ev Lv s = (Ok tt, s1, o1) /\ g_eig_sft s' = g_eig_sft s1).
    { clear m m' ev tr Lv s' o ev' tr' Lv' s'' o' S S' E E'. intros m ev tr Lv s' o E. apply run_inv in E. destruct E as (ebs & s1 & o1 & o2 & _ & E & _ & Q). exists s1, o1. split; [exact E|].
      destruct tr as [M|]; [|now destruct Q as (_ & -> & _)]. destruct Q as (_ & a & fs & _ & _ & Q). unfold shows in Q.
      apply pbind_inv in Q. destruct Q as [([] & s2 & o3 & o4 & Q1 & Q & _) | (e & _ & X)]; [|discriminate].
      assert (s' = s2) as ->.
      { apply pbind_inv in Q. destruct Q as [([] & s3 & o5 & o6 & Q2 & Q & _) | (e & _ & X)]; [|discriminate].
        assert (s3 = s2) as -> by (pose proof (keeps_Show_Rats flt M (Some (g_rat_lst s)) (Some (g_rat_num s)) s2) as K; rewrite Q2 in K; exact K).
        pose proof (keeps_Show_Amps flt M (Some (g_amp_lst s)) (Some (g_amp_num s)) s2) as K. rewrite Q in K. exact K. }
      destruct (0 <? fr); [|unfold pret in Q1; injection Q1 as <- _; reflexivity].
      unfold fit_rates in Q1. unfold pbind at 1, pget at 1 in Q1. 
      destruct (mem (g_rat_L1 s1) Lv); [|discriminate]. destruct (mem (g_rat_L2 s1) Lv); [|discriminate]. unfold pbind, praise, passign, pret in Q1. cbn [negb raise_if] in Q1.
      destruct (get_block _ _ _ _) as [B|]; [|discriminate]. destruct (np_get B _ _) as [x|]; [|discriminate]. destruct (g_rat_fun s1 _ _ _ x) as [r|]; [|discriminate].
      destruct (Req_EM_T _ 0); [discriminate|]. destruct (g_amp_sft_fun s1 _) as [y|]; [|discriminate]. injection Q1 as <- _. now destruct s1. }
    destruct (Keep _ _ _ _ _ _ E) as (sa & oa & EA & KA). destruct (Keep _ _ _ _ _ _ E') as (sb & ob & EB & KB). clear Keep.
    apply run_inv in E, E'. destruct E as (ebs & s1 & o1 & o2 & ED & EE & -> & Q). destruct E' as (ebs' & s1' & o1' & o2' & ED' & EE' & -> & Q').
    destruct (dig_same _ _ _ _ _ _ _ _ (fiddle_same _ _ S S') _ _ _ _ _ _ _ _ ED ED') as (<- & <-).
    rewrite EA in EE, EB, EE'. injection EE as -> ->. injection EE' as -> ->. injection EB as <- <-.
    split; [reflexivity|]. split; [reflexivity|]. split; [congruence|].
    destruct tr as [M|], tr' as [M'|].
    - split; [split; discriminate|discriminate].
    - destruct Q as (Q & _), Q' as (Q' & _). congruence.
    - destruct Q as (Q & _), Q' as (Q' & _). congruence.
    - split; [tauto|]. intros _. destruct Q as (_ & -> & ->), Q' as (_ & -> & ->). auto.
  Qed.

  (** Both arrays of amplitudes, in terms of the same matrices. *)
  Lemma two_arrays m m' ev M Lv s' o ev' M' Lv' s'' o' : sound m -> sound m' -> Op_Tame ham_op = true ->
    run m = (Ok (ev, Some M, Lv), s', o) -> run m' = (Ok (ev', Some M', Lv'), s'', o') ->
    ev = ev' /\ Lv = Lv' /\ snd M = snd M' /\ fs_Lvals (snd M) = Lv /\
    exists T start dim vec vec', array_blocks M start dim /\ array_blocks M' start dim /\
      (forall L vals, In (L, vals) (combine Lv ev) -> zlen vals = dim L /\ exists A, nrows A = dim L /\
         (forall i j, 0 <= i < nrows A -> 0 <= j < nrows A -> ent A i j = ent A j i) /\
         eigen_decomposition A vals (vec L) /\ eigen_decomposition A vals (vec' L)) /\
      (forall L1 L2 n1 n2, In L1 Lv -> In L2 Lv -> 1 <= n1 <= dim L1 -> 1 <= n2 <= dim L2 ->
         element M start L1 n1 L2 n2 = bracket (vec L2) (n2 - 1) T (start L2) (start L1) (vec L1) (n1 - 1) /\
         element M' start L1 n1 L2 n2 = bracket (vec' L2) (n2 - 1) T (start L2) (start L1) (vec' L1) (n1 - 1)).
  Proof.
    intros (R1 & S1 & I1) (R1' & S1' & I1') HT E E'.
    destruct (C67_amplitudes flt RP CG (m_eigh m) (m_inv m) (m_junk m) ham_op an lb nu_min nu_max v_min v_max fe fr L_min L_max s ev M Lv s' o R1 S1 I1 HT E)
      as (lo & hi & X & T & start & dim & vec & EH & _ & ET & EL & HA & HB & HM).
    destruct (C67_amplitudes flt RP CG (m_eigh m') (m_inv m') (m_junk m') ham_op an lb nu_min nu_max v_min v_max fe fr L_min L_max s ev' M' Lv' s'' o' R1' S1' I1' HT E')
      as (lo' & hi' & X' & T' & start' & dim' & vec' & EH' & _ & ET' & EL' & HA' & HB' & HM').
    apply run_inv in E, E'. destruct E as (ebs & s1 & o1 & o2 & ED & _ & _ & Q). destruct E' as (ebs' & s1' & o1' & o2' & ED' & _ & _ & Q').
    destruct (dig_same _ _ _ _ _ _ _ _ (fiddle_same _ _ S1 S1') _ _ _ _ _ _ _ _ ED ED') as (<- & <-).
    rewrite EH in EH'. injection EH' as <- <-. rewrite ET in ET'. injection ET' as <-.
    destruct Q as (_ & a & fs & EA & -> & _). destruct Q' as (_ & a' & fs' & EA' & -> & _).
    assert (fs = fs') as <-.
    { unfold amps, amp_stage, AmpXspeig in EA, EA'. apply bind_ok in EA. destruct EA as (u & Eu & EA). rewrite Eu in EA'. cbn [bind] in EA'.
      apply bind_ok in EA. destruct EA as (f & Ef & EA). rewrite Ef in EA'. cbn [bind] in EA'.
      repeat (apply bind_ok in EA; destruct EA as (? & _ & EA); try (destruct x as [? ?])). 
      repeat (apply bind_ok in EA'; destruct EA' as (? & _ & EA')).
      repeat match goal with H : (let '(_, _) := ?p in _) = _ |- _ => destruct p end.
      repeat (apply bind_ok in EA; destruct EA as (? & _ & EA)). repeat (apply bind_ok in EA'; destruct EA' as (? & _ & EA')).
      injection EA as _ <-. injection EA' as _ <-. reflexivity. }
    cbn [snd] in *.
    assert (SD : forall L, In L Lv -> start' L = start L /\ dim' L = dim L).
    { intros L I. destruct (HA L) as (G & _); [cbn [snd]; rewrite EL; exact I|]. destruct (HA' L) as (G' & _); [cbn [snd]; rewrite EL; exact I|].
      cbn [snd] in G, G'. rewrite G in G'. injection G' as G1 G2. lia. }
    split; [reflexivity|]. split; [reflexivity|]. split; [reflexivity|]. split; [exact EL|].
    exists T, start, dim, vec, vec'. split; [exact HA|]. split; [|split].
    - intros L I. destruct (SD L ltac:(cbn [snd] in I; rewrite EL in I; exact I)) as (<- & <-). now apply HA'.
    - destruct (C38_Lvals _ _ _ _ _ _ _ _ _ _ _ _ _ ED) as (Hs & _).
      assert (ND : NoDup Lv) by (eapply StronglySorted_NoDup; [|exact Hs]; intros; lia).
      intros L vals I. pose proof (in_combine_l _ _ _ _ I) as IL.
      destruct (HB L IL) as (XL & H & v & _ & _ & _ & EM & NH & Iv & D). destruct (HB' L IL) as (XL' & H' & v' & _ & _ & _ & EM' & _ & Iv' & D').
      rewrite EM in EM'. injection EM' as <-. pose proof (combine_fun _ _ _ _ _ ND I Iv) as <-. pose proof (combine_fun _ _ _ _ _ ND I Iv') as <-.
      split; [rewrite (proj1 D); exact NH|]. exists (symmetric_part H). split; [exact NH|]. split; [intros i j _ _; cbn; lra|]. auto.
    - intros L1 L2 n1 n2 J1 J2 H1 H2. destruct (SD L1 J1) as (A1 & B1). destruct (SD L2 J2) as (A2 & B2).
      split; [now apply HM|]. specialize (HM' L1 L2 n1 n2 J1 J2). rewrite A1, A2, B1, B2 in HM'. rewrite <- HM' by assumption. unfold element. now rewrite A1, A2.
  Qed.

  (** The total strength between two levels is the same. *)
  Theorem C87_strength : forall m m' ev M Lv s' o ev' M' Lv' s'' o', sound m -> sound m' -> Op_Tame ham_op = true ->
    run m = (Ok (ev, Some M, Lv), s', o) -> run m' = (Ok (ev', Some M', Lv'), s'', o') ->
    exists start dim, array_blocks M start dim /\ array_blocks M' start dim /\
      forall L1 L2 vals1 vals2 x1 x2, In (L1, vals1) (combine Lv ev) -> In (L2, vals2) (combine Lv ev) ->
        level_strength M start L1 vals1 x1 L2 vals2 x2 = level_strength M' start L1 vals1 x1 L2 vals2 x2.
  Proof.
    intros m m' ev M Lv s' o ev' M' Lv' s'' o' S S' HT E E'.
    destruct (two_arrays _ _ _ _ _ _ _ _ _ _ _ _ S S' HT E E') as (_ & _ & _ & _ & T & start & dim & vec & vec' & HA & HA' & HB & HM).
    exists start, dim. split; [exact HA|]. split; [exact HA'|]. intros L1 L2 vals1 vals2 x1 x2 J1 J2.
    destruct (HB _ _ J1) as (Z1 & A1 & N1 & Y1 & D1 & D1'). destruct (HB _ _ J2) as (Z2 & A2 & N2 & Y2 & D2 & D2').
    pose proof (same_strength A1 A2 vals1 vals2 (vec L1) (vec L2) (vec' L1) (vec' L2) T (start L2) (start L1) x1 x2 Y1 Y2 D1 D1' D2 D2') as SS.
    assert (G : forall (Y : block_array) (B : Z -> Z -> R), (forall k1 k2, 0 <= k1 < dim L1 -> 0 <= k2 < dim L2 -> element Y start L1 (k1 + 1) L2 (k2 + 1) = B k2 k1) ->
      level_strength Y start L1 vals1 x1 L2 vals2 x2
      = total (fun k1 => total (fun k2 => at_level vals1 x1 k1 * at_level vals2 x2 k2 * B k2 k1 ^ 2)%R (nrows A2)) (nrows A1)).
    { intros Y B HY. unfold level_strength. rewrite Z1, Z2, N1, N2. apply total_ext. intros k1 Hk1. apply total_ext. intros k2 Hk2. rewrite HY by assumption.
      unfold at_level. destruct (Req_EM_T _ x1), (Req_EM_T _ x2); ring. }
    rewrite (G M (fun k2 k1 => bracket (vec L2) k2 T (start L2) (start L1) (vec L1) k1)), (G M' (fun k2 k1 => bracket (vec' L2) k2 T (start L2) (start L1) (vec' L1) k1)); [exact SS| |];
      intros k1 k2 H1 H2; destruct (HM L1 L2 (k1 + 1) (k2 + 1) (in_combine_l _ _ _ _ J1) (in_combine_l _ _ _ _ J2) ltac:(lia) ltac:(lia)) as (F & F').
    - rewrite F'. f_equal; lia.
    - rewrite F. f_equal; lia.
  Qed.

  (** Between levels that occur once, the amplitude is the same but for its sign. *)
  Theorem C87_amplitudes : forall m m' ev M Lv s' o ev' M' Lv' s'' o', sound m -> sound m' -> Op_Tame ham_op = true ->
    run m = (Ok (ev, Some M, Lv), s', o) -> run m' = (Ok (ev', Some M', Lv'), s'', o') ->
    exists start dim, array_blocks M start dim /\ array_blocks M' start dim /\
      forall L1 L2 vals1 vals2 n1 n2, In (L1, vals1) (combine Lv ev) -> In (L2, vals2) (combine Lv ev) -> occurs_once vals1 n1 -> occurs_once vals2 n2 ->
        Rabs (element M start L1 n1 L2 n2) = Rabs (element M' start L1 n1 L2 n2).
  Proof.
    intros m m' ev M Lv s' o ev' M' Lv' s'' o' S S' HT E E'.
    destruct (two_arrays _ _ _ _ _ _ _ _ _ _ _ _ S S' HT E E') as (_ & _ & _ & _ & T & start & dim & vec & vec' & HA & HA' & HB & HM).
    exists start, dim. split; [exact HA|]. split; [exact HA'|]. intros L1 L2 vals1 vals2 n1 n2 J1 J2 O1 O2.
    destruct (HB _ _ J1) as (Z1 & A1 & N1 & Y1 & D1 & D1'). destruct (HB _ _ J2) as (Z2 & A2 & N2 & Y2 & D2 & D2').
    pose proof (proj1 O1) as B1. pose proof (proj1 O2) as B2. rewrite Z1 in B1. rewrite Z2 in B2.
    destruct (HM L1 L2 n1 n2 (in_combine_l _ _ _ _ J1) (in_combine_l _ _ _ _ J2) B1 B2) as (-> & ->).
    destruct (same_amplitude A1 A2 vals1 vals2 (vec L1) (vec L2) (vec' L1) (vec' L2) T (start L2) (start L1) (n1 - 1) (n2 - 1) Y1 Y2 D1 D1' D2 D2' ltac:(lia) ltac:(lia)
      (once_simple _ _ O1) (once_simple _ _ O2)) as [-> | ->]; [reflexivity|apply Rabs_Ropp].
  Qed.

  (** If no level occurs twice, the whole report is the same: what is printed, and
      the fitted scales. *)
  Theorem C87_report : forall m m' ev M Lv s' o ev' M' Lv' s'' o', sound m -> sound m' -> Op_Tame ham_op = true ->
    (forall vals, In vals ev -> NoDup vals) ->
    (g_rat_lst s <> [] \/ 0 < fr -> ignores_sign (g_rat_fun s)) -> (g_amp_lst s <> [] -> ignores_sign (g_amp_fun s)) ->
    run m = (Ok (ev, Some M, Lv), s', o) -> run m' = (Ok (ev', Some M', Lv'), s'', o') ->
    s' = s'' /\ o = o'.
  Proof.
    intros m m' ev M Lv s' o ev' M' Lv' s'' o' S S' HT ND HR HP E E'.
    destruct (two_arrays _ _ _ _ _ _ _ _ _ _ _ _ S S' HT E E') as (<- & <- & ES & EL & T & start & dim & vec & vec' & HA & HA' & HB & HM).
    apply run_inv in E, E'. destruct E as (ebs & s1 & o1 & o2 & ED & EE & -> & Q). destruct E' as (ebs' & s1' & o1' & o2' & ED' & EE' & -> & Q').
    rewrite EE in EE'. injection EE' as <- <-. destruct Q as (NE & a & fs & _ & _ & Q). destruct Q' as (_ & a' & fs' & _ & _ & Q').
    assert (Pos : forall Y s' o2, shows Y Lv s1 = (Ok tt, s', o2) -> (nrows (fst Y) =? 0) = false).
    { clear - NE. intros Y s' o2 Q. unfold shows in Q.
      apply pbind_inv in Q. destruct Q as [([] & s2 & o3 & o4 & _ & Q & _) | (e & _ & X)]; [|discriminate].
      apply pbind_inv in Q. destruct Q as [([] & s3 & o5 & o6 & Q2 & Q & _) | (e & _ & X)]; [|discriminate].
      unfold Show_Rats in Q2. unfold Show_Amps in Q. unfold pbind at 1, pget in Q2. unfold pbind at 1, pget in Q. cbn [default] in Q, Q2.
      destruct (nrows (fst Y) =? 0) eqn:N0; [exfalso|reflexivity].
      unfold Show_Mels in Q, Q2. rewrite N0 in Q, Q2. destruct (g_rat_lst s) as [|d l]; [|discriminate]. destruct (g_amp_lst s) as [|d l]; [|discriminate]. discriminate. }
    assert (AL : alike M M').
    { split; [exact ES|]. split; [rewrite (Pos _ _ _ Q), (Pos _ _ _ Q'); reflexivity|]. intros L1 L2 J1 J2.
      do 2 eexists. split; [exact (block_val M start dim HA L1 L2 J1 J2)|]. rewrite ES in J1, J2. split; [exact (block_val M' start dim HA' L1 L2 J1 J2)|].
      rewrite <- ES, EL in J1, J2. cbn [nrows ncols ent]. split; [reflexivity|]. split; [reflexivity|]. intros i j Hi Hj.
      destruct (C38_Lvals _ _ _ _ _ _ _ _ _ _ _ _ _ ED) as (_ & _ & LE & _).
      destruct (combine_in_l Lv ev L1 (eq_sym LE) J1) as (v1 & I1). destruct (combine_in_l Lv ev L2 (eq_sym LE) J2) as (v2 & I2).
      destruct (HB _ _ I1) as (Z1 & A1 & N1 & Y1 & D1 & D1'). destruct (HB _ _ I2) as (Z2 & A2 & N2 & Y2 & D2 & D2').
      pose proof (once_simple v1 (j + 1) (nodup_once v1 (j + 1) (ND _ (in_combine_r _ _ _ _ I1)) ltac:(lia))) as O1.
      pose proof (once_simple v2 (i + 1) (nodup_once v2 (i + 1) (ND _ (in_combine_r _ _ _ _ I2)) ltac:(lia))) as O2.
      destruct (HM L1 L2 (j + 1) (i + 1) J1 J2 ltac:(lia) ltac:(lia)) as (F & F'). unfold element in F, F'.
      replace (start L2 + (i + 1) - 1) with (start L2 + i) in F, F' by lia. replace (start L1 + (j + 1) - 1) with (start L1 + j) in F, F' by lia. rewrite F, F'.
      apply (same_amplitude A1 A2 v1 v2); (assumption || lia). }
    assert (RS : rescaled s s1).
    { pose proof (rescales_eig_stage flt fe s ev Lv s) as K. rewrite EE in K. exact K. }
    assert (SH : shows M Lv s1 = shows M' Lv s1).
    { unfold shows. 
      assert (F1 : (if 0 <? fr then fit_rates M Lv else pret tt) s1 = (if 0 <? fr then fit_rates M' Lv else pret tt) s1).
      { destruct (0 <? fr) eqn:Fr; [|reflexivity]. apply fit_same; [exact AL|exact EL|].
        destruct RS as (x & y & z & ->). replace (g_rat_fun _) with (g_rat_fun s) by (now destruct s). apply HR. right. lia. }
      unfold pbind at 1. rewrite F1. unfold pbind at 2. destruct ((if 0 <? fr then fit_rates M' Lv else pret tt) s1) as [[[[]|e] s2] o3] eqn:F2; [|reflexivity].
      assert (RS2 : rescaled s s2).
      { eapply rescaled_trans; [exact RS|]. destruct (0 <? fr); [|unfold pret in F2; injection F2 as <- _; apply rescaled_refl].
        pose proof (rescales_fit_rat M' Lv s1) as K. rewrite F2 in K. exact K. }
      assert (FR : Show_Rats flt M (Some (g_rat_lst s)) (Some (g_rat_num s)) s2 = Show_Rats flt M' (Some (g_rat_lst s)) (Some (g_rat_num s)) s2).
      { unfold Show_Rats, pbind, pget. cbn [default]. destruct (g_rat_lst s) as [|d l] eqn:GL; [reflexivity|].
        rewrite (mels_same flt M M' (g_rat_fun s2)); [reflexivity|exact AL|].
        destruct RS2 as (x & y & z & ->). replace (g_rat_fun _) with (g_rat_fun s) by (now destruct s). apply HR. left. congruence. }
      unfold pbind. rewrite FR. destruct (Show_Rats flt M' _ _ s2) as [[[[]|e] s3] o4] eqn:F3; [|reflexivity].
      assert (s3 = s2) as -> by (pose proof (keeps_Show_Rats flt M' (Some (g_rat_lst s)) (Some (g_rat_num s)) s2) as K; rewrite F3 in K; exact K).
      assert (FA : Show_Amps flt M (Some (g_amp_lst s)) (Some (g_amp_num s)) s2 = Show_Amps flt M' (Some (g_amp_lst s)) (Some (g_amp_num s)) s2).
      { unfold Show_Amps, pbind, pget. cbn [default]. destruct (g_amp_lst s) as [|d l] eqn:GL; [reflexivity|].
        rewrite (mels_same flt M M' (g_amp_fun s2)); [reflexivity|exact AL|].
        destruct RS2 as (x & y & z & ->). replace (g_amp_fun _) with (g_amp_fun s) by (now destruct s). apply HP. congruence. }
      rewrite FA. reflexivity. }
    rewrite SH, Q' in Q. injection Q as <- <-. auto.
  Qed.
End Runs.
(** ** Routines that choose differently *)

(** The library's rates ignore the sign of the matrix element, its amplitudes do not. *)
Theorem C87_rates : ignores_sign quad_rat_fun /\ ignores_sign mel_rat_fun /\ ignores_sign unit_rat_fun /\
  forall am L1 L2 x, (exists c, quad_amp_fun am L1 L2 x = Ok (x * c)%R /\ quad_amp_fun am L1 L2 (- x)%R = Ok (- (x * c))%R) \/
    (exists e, forall y, quad_amp_fun am L1 L2 y = Raise e).
Proof.
  split; [|split; [|split]].
  - intros am L1 L2 x. unfold quad_rat_fun. replace ((- x) ^ 2)%R with (x ^ 2)%R by ring. reflexivity.
  - intros am L1 L2 x. unfold mel_rat_fun. replace ((- x) ^ 2)%R with (x ^ 2)%R by ring. reflexivity.
  - intros am L1 L2 x. unfold unit_rat_fun. f_equal. ring.
  - intros am L1 L2 x. unfold quad_amp_fun. destruct (CG_SO3_float _ _ _ _ _ _) as [c|e]; cbn [bind]; [left|right].
    + exists c. split; [reflexivity|]. f_equal. ring.
    + exists e. reflexivity.
Qed.

(** A symmetric orthogonal matrix of two rows. *)
Definition two_by_two (a b c : R) : mat R := mkMat 2 2 (fun i j => if i =? j then (if i =? 0 then a else b) else c).

(** A machine whose eigenvectors of an ascending diagonal matrix are the columns of
    that matrix, wherever that is an answer. *)
Definition choosing (a b c : R) : machine := mkMachine
  (fun A => match eigh0 A with
            | Ok (vals, _) =>
                if nrows A =? 2 then
                  if Req_EM_T c 0 then Ok (vals, two_by_two a b c)
                  else if Req_EM_T (nth 0 vals 0) (nth 1 vals 0) then Ok (vals, two_by_two a b c) else Raise ValueError
                else Raise ValueError
            | Raise e => Raise e
            end)%R
  (fun M => if (nrows M =? 2) && (ncols M =? 2) then
              if Req_EM_T (ent M 0 0) a then if Req_EM_T (ent M 1 1) b then if Req_EM_T (ent M 0 1) c then if Req_EM_T (ent M 1 0) c
              then Ok (two_by_two a b c) else Raise ValueError else Raise ValueError else Raise ValueError else Raise ValueError
            else Raise ValueError)
  (fun _ _ => 0%R).

Lemma total2 (f : Z -> R) : total f 2 = (f 0%Z + f 1%Z)%R.
Proof. unfold total. change (Z.to_nat 2) with 2%nat. cbn [rsum]. change (Z.of_nat 0) with 0. change (Z.of_nat 1) with 1. ring. Qed.
Lemma two_cases i : 0 <= i < 2 -> i = 0 \/ i = 1.
Proof. lia. Qed.

Lemma choosing_sound a b c : (a * a + c * c = 1)%R -> (b * b + c * c = 1)%R -> (c * (a + b) = 0)%R -> sound (choosing a b c).
Proof.
  intros H1 H2 H3.
  assert (HE : eigh_sound (m_eigh (choosing a b c))).
  { intros A vals P Sq Sym E. cbn [choosing m_eigh] in E. destruct (eigh0 A) as [[v Q]|e] eqn:E0; [|discriminate].
    destruct (nrows A =? 2) eqn:N2; [|discriminate]. apply Z.eqb_eq in N2.
    assert (EQ : v = vals /\ P = two_by_two a b c /\ (c = 0%R \/ nth 0 vals 0%R = nth 1 vals 0%R)).
    { destruct (Req_EM_T c 0); [injection E as -> <-; auto|]. destruct (Req_EM_T _ _); [injection E as -> <-; auto|discriminate]. }
    destruct EQ as (-> & -> & HC). clear E.
    assert (Q = eye 2) as -> by (unfold eigh0 in E0; destruct (ascending_diagonal A); [injection E0 as _ <-; now rewrite N2|discriminate]).
    pose proof (eigh0_sound A vals (eye 2) Sq Sym E0) as (L1 & _ & _ & L4 & L5 & _).
    split; [exact L1|]. split; [cbn; congruence|]. split; [cbn; congruence|]. split; [exact L4|]. rewrite N2 in *.
    assert (DA : forall i j, 0 <= i < 2 -> 0 <= j < 2 -> ent A i j = (if i =? j then nth (Z.to_nat j) vals 0 else 0)%R).
    { intros i j Hi Hj. specialize (L5 i j Hi Hj). rewrite total2 in L5. cbn [eye ent] in L5. destruct (two_cases i Hi) as [-> | ->], (two_cases j Hj) as [-> | ->];
        cbn [Z.eqb Pos.eqb] in L5 |- *; lra. }
    split.
    - intros i j Hi Hj. rewrite total2. rewrite !DA by (assumption || lia). cbn [two_by_two ent]. destruct (two_cases i Hi) as [-> | ->], (two_cases j Hj) as [-> | ->];
        change (Z.to_nat 0) with 0%nat; change (Z.to_nat 1) with 1%nat; cbn [Z.eqb Pos.eqb]; (destruct HC as [-> | HC]; [ring|rewrite ?HC; ring]).
    - intros i j Hi Hj. rewrite !total2. cbn [two_by_two ent]. destruct (two_cases i Hi) as [-> | ->], (two_cases j Hj) as [-> | ->]; cbn [Z.eqb Pos.eqb]; lra. }
  assert (HI : inv_sound (m_inv (choosing a b c))).
  { intros M Q Sq E. cbn [choosing m_inv] in E. destruct (nrows M =? 2) eqn:N1; [|discriminate]. destruct (ncols M =? 2) eqn:N2; [|discriminate]. cbn [andb] in E.
    apply Z.eqb_eq in N1, N2.
    destruct (Req_EM_T (ent M 0 0) a) as [E1|]; [|discriminate]. destruct (Req_EM_T (ent M 1 1) b) as [E2|]; [|discriminate].
    destruct (Req_EM_T (ent M 0 1) c) as [E3|]; [|discriminate]. destruct (Req_EM_T (ent M 1 0) c) as [E4|]; [|discriminate]. injection E as <-.
    split; [cbn; congruence|]. split; [cbn; congruence|]. rewrite N1. intros i j Hi Hj. rewrite total2. cbn [two_by_two ent].
    destruct (two_cases i Hi) as [-> | ->], (two_cases j Hj) as [-> | ->]; cbn [Z.eqb Pos.eqb]; rewrite ?E1, ?E2, ?E3, ?E4; lra. }
  split; [|split; [exact HE|exact HI]]. split.
  - intros M vals P Sq E. cbn [choosing m_eigh] in E. destruct (eigh0 M) as [[v Q]|e] eqn:E0; [|discriminate].
    destruct (nrows M =? 2) eqn:N2; [|discriminate]. apply Z.eqb_eq in N2.
    assert (EQ : v = vals /\ P = two_by_two a b c).
    { destruct (Req_EM_T c 0); [injection E as -> <-; auto|]. destruct (Req_EM_T _ _); [injection E as -> <-; auto|discriminate]. }
    destruct EQ as (-> & ->). split; [|cbn; split; congruence]. now apply (eigh0_shapes M vals Q).
  - intros M Q Sq E. destruct (HI M Q Sq E) as (W1 & W2 & _). auto.
Qed.

Section Choices.
  Variable flt : text -> R -> text.
  Variables (Gam : R -> R) (Msqrt Minv : mat R -> res (mat R)) (CG : Z -> Z -> Z -> Z -> Z -> Z -> Z -> Z -> Z -> res R).
  Let RP := RadProd (Rep_elem Gam Msqrt Minv).
  Let RepX := code_matrices RP CG.

  Definition beta2 : OperatorSum := [(CNum 1, [ORad Radial_b2])].
  Definition weight : OperatorSum := [(CNum 1, [ORad Radial_S0])].

  Lemma matrix_of (s : settings) w V : g_lam_fun s = lambda_acm_fun ->
    radial_matrix (RP w 1%R (5 / 2)%R 0 0 1 0) 0 1 (V (5 / 2)%R) -> Forall plain_symbol w ->
    exists D, RepX s [(CNum 1, map ORad w)] 1 (5 / 2) 0 1 0 0 0 (Some 0) = Ok D /\ nrows D = 2 /\ ncols D = 2 /\
      forall i j, 0 <= i < 2 -> 0 <= j < 2 -> ent D i j = V (5 / 2)%R i j.
  Proof.
    intros HL HW HP.
    destruct (rep_radial RP CG (g_lam_fun s) 1 (5 / 2) 0 1 0 0 0 0 ltac:(lia) ltac:(lia) ltac:(lia) [(CNum 1, w, V)] [(0, (0, 1, 0)); (1, (0, 1, 0))]) as (D & ED & S1 & S2 & EV).
    { intros c w' V' [E | []]. injection E as <- <- <-. split; [|exact HP]. intros v Hvv. replace v with 0 by lia. exists 0. split; [rewrite HL; reflexivity|].
      rewrite Rplus_0_r. exact HW. }
    { vm_compute. reflexivity. }
    exists D. split; [exact ED|]. split; [exact S1|]. split; [exact S2|]. intros i j Hi Hj.
    assert (LA : lam_at (g_lam_fun s) (5 / 2) 0 = (5 / 2)%R) by (unfold lam_at; rewrite HL; change (lambda_acm_fun 0) with (Ok 0); apply Rplus_0_r).
    destruct (two_cases i Hi) as [-> | ->], (two_cases j Hj) as [-> | ->].
    - rewrite (EV 0 0 0 (0, 1, 0) 0 0 1 0 ltac:(lia) ltac:(lia) eq_refl eq_refl). cbn [map fold_right cval fst snd]. rewrite LA. change (state_eqb (0, 1, 0) (0, 1, 0)) with true. cbv iota. ring.
    - rewrite (EV 0 1 0 (0, 1, 0) 1 0 1 0 ltac:(lia) ltac:(lia) eq_refl eq_refl). cbn [map fold_right cval fst snd]. rewrite LA. change (state_eqb (0, 1, 0) (0, 1, 0)) with true. cbv iota. ring.
    - rewrite (EV 1 0 1 (0, 1, 0) 0 0 1 0 ltac:(lia) ltac:(lia) eq_refl eq_refl). cbn [map fold_right cval fst snd]. rewrite LA. change (state_eqb (0, 1, 0) (0, 1, 0)) with true. cbv iota. ring.
    - rewrite (EV 1 1 1 (0, 1, 0) 1 0 1 0 ltac:(lia) ltac:(lia) eq_refl eq_refl). cbn [map fold_right cval fst snd]. rewrite LA. change (state_eqb (0, 1, 0) (0, 1, 0)) with true. cbv iota. ring.
  Qed.

  Lemma one_run (s : settings) op D x y a b c : g_lam_fun s = lambda_acm_fun -> g_rat_TRop s = beta2 -> g_eig_num s = 0 ->
    (0 <? zlen (g_rat_lst s)) || (0 <? zlen (g_amp_lst s)) = true -> Op_Tame op = true ->
    RepX s op 1 (5 / 2) 0 1 0 0 0 None = Ok D -> nrows D = 2 -> ncols D = 2 ->
    (forall i j, 0 <= i < 2 -> 0 <= j < 2 -> ent D i j = if i =? j then (if i =? 0 then x else y) else 0%R) -> (x <= y)%R ->
    (a * a + c * c = 1)%R -> (b * b + c * c = 1)%R -> (c * (a + b) = 0)%R -> c = 0%R \/ x = y ->
    exists M start dim, array_blocks M start dim /\ dim 0 = 2 /\ fs_Lvals (snd M) = [0] /\ 0 < nrows (fst M) /\
      (forall n1 n2, 1 <= n1 <= 2 -> 1 <= n2 <= 2 -> element M start 0 n1 0 n2 =
         total (fun k => total (fun l => ent (two_by_two a b c) (n2 - 1) k * v_b2 (5 / 2) k l * ent (two_by_two a b c) l (n1 - 1))%R 2) 2) /\
      forall o, shows flt 0 s M [0] s = (Ok tt, s, o) ->
        run_on flt RP CG (choosing a b c) op 1 (5 / 2) 0 1 0 0 0 0 0 None s = (Ok ([[x; y]], Some M, [0]), s, o).
  Proof.
    intros HL HT HN HNE HTame ED D1 D2 DV Hxy C1 C2 C3 C4. set (m := choosing a b c). set (P := two_by_two a b c).
    destruct (choosing_sound a b c C1 C2 C3) as (RS & SE & SI). fold m in RS, SE, SI.
    assert (EE : Eigenfiddle (m_eigh m) D = Ok ([x; y], P)).
    { destruct (C47_symmetrised eigh0 D ltac:(congruence)) as (A & EA & A1 & A2 & A3 & A4 & _).
      assert (E0 : eigh0 A = Ok ([x; y], eye (nrows A))).
      { apply eigh0_diagonal; [rewrite A1, D1; reflexivity| |repeat (apply SSorted_cons || apply SSorted_nil || apply Forall_cons || apply Forall_nil); exact Hxy].
        intros i j Hi Hj. rewrite A1, D1 in Hi, Hj. rewrite A4, !DV by assumption.
        destruct (two_cases i Hi) as [-> | ->], (two_cases j Hj) as [-> | ->]; cbn [Z.eqb Pos.eqb]; change (nth (Z.to_nat 0) [x; y] 0%R) with x; change (nth (Z.to_nat 1) [x; y] 0%R) with y; lra. }
      unfold Eigenfiddle in EA |- *. replace (nrows D =? ncols D) with true in EA |- * by lia. cbn [negb raise_if bind] in EA |- *.
      set (B := mscale _ _) in *. rewrite E0 in EA. cbn [m choosing m_eigh]. rewrite EA.
      replace (nrows B =? 2) with true by (cbn; lia). destruct (Req_EM_T c 0); [reflexivity|]. cbn [nth]. destruct (Req_EM_T x y); [reflexivity|]. destruct C4; contradiction. }
    assert (EI : m_inv m P = Ok P).
    { cbn. destruct (Req_EM_T a a); [|congruence]. destruct (Req_EM_T b b); [|congruence]. destruct (Req_EM_T c c); [|congruence]. reflexivity. }
    assert (DI : dig RepX (m_eigh m) op 1 (5 / 2) 0 1 0 0 s 0 None = Ok ([[x; y]], [P], [0])).
    { assert (G : forall (F : Z -> option Z -> res (mat R)) (Eg : mat R -> res (list R * mat R)), F 0 None = Ok D -> Eg D = Ok ([x; y]%R, P) ->
        DigXspace F Eg true 0 1 0 0 0 None = Ok ([[x; y]], [P], [0])).
      { intros F Eg F1 F2. unfold DigXspace. rewrite !require_range_ok by lia. cbn [bind]. change (py_range 0 (0 + 1)) with [0]. cbn [dig_tame].
        change (dimSO5r3_rngV 0 0 0) with (Ok 1). cbn [bind Z.ltb Z.compare]. rewrite F1. cbn [bind]. rewrite F2. reflexivity. }
      unfold dig. rewrite HTame. now apply G. }
    destruct (matrix_of s [Radial_b2] (fun l f i => (powerRZ 1 (-2) * v_b2 l f i)%R) HL) as (T & ET & T1 & T2 & TV).
    { apply word_b2; [lia|lra]. }
    { repeat constructor. }
    change [(CNum 1, map ORad [Radial_b2])] with beta2 in ET. rewrite <- HT in ET.
    destruct (C39_AmpXspeig_complete (fun lo hi => RepX s (g_rat_TRop s) 1%R (5 / 2)%R 0 1 0 0 lo (Some hi)) (m_inv m) [P] [P] 0 1 0 0 [0] 0 0 T 2)
      as (r & fs & EA & R1 & R2 & _ & HB); try reflexivity; try lia; try assumption.
    { intros L HLL _. left. lia. }
    { cbn [mapM]. rewrite EI. reflexivity. }
    { constructor; [|constructor]. split; reflexivity. }
    { constructor; [|constructor]. split; reflexivity. }
    pose proof (C61_code_shapes RP CG (m_eigh m) (m_inv m) 1 (5 / 2) 0 1 0 0 RS) as GS.
    destruct (amp_stage_blocks flt RepX (m_eigh m) (m_inv m) (m_junk m) op 1 (5 / 2) 0 1 0 0 s 0 None _ _ _ r fs GS DI EA) as (EL & _ & start & dim & HA & HD).
    pose proof (HD 0 (or_introl eq_refl)) as D0. vm_compute in D0. injection D0 as D0. symmetry in D0.
    exists (known (m_junk m) r, fs), start, dim. split; [exact HA|]. split; [exact D0|]. split; [exact EL|]. split; [cbn [fst known nrows]; lia|].
    assert (S0 : start 0 = 0).
    { destruct (HA 0) as (_ & P1 & P2 & P3 & _); [cbn [snd]; rewrite EL; now left|]. cbn [fst known nrows] in P3. lia. }
    split.
    - intros n1 n2 H1 H2. destruct (HB P 0 P 0 (or_introl eq_refl) (or_introl eq_refl)) as (B & QB & QBP & out & EB & EQB & EQBP & EO & (O1 & O2 & O3)).
      assert (GB : forall {A} (z : mat A), nrows z = 2 -> ncols z = 2 -> get_block z fs 0 0 = Ok (mkMat 2 2 (fun i j => ent z i j))).
      { intros A z Z1 Z2. destruct (HA 0) as (G1 & _); [cbn [snd]; rewrite EL; now left|]. cbn [snd] in G1. unfold get_block. rewrite G1. cbn [bind]. rewrite S0, D0.
        unfold slice, slice_bound. rewrite Z1, Z2. reflexivity. }
      rewrite (GB _ T T1 T2) in EB. injection EB as <-. rewrite (GB _ r R1 R2) in EO. injection EO as <-. clear GB.
      unfold matmul in EQB, EQBP. cbn [nrows ncols ent P two_by_two Z.eqb Pos.eqb] in EQB. injection EQB as <-.
      cbn [nrows ncols ent P two_by_two Z.eqb Pos.eqb] in EQBP. injection EQBP as <-.
      cbn [nrows ncols ent] in O1, O2, O3. specialize (O3 (n2 - 1) (n1 - 1) ltac:(lia) ltac:(lia)). cbn [mat_some ent] in O3.
      unfold element. cbn [fst known ent]. rewrite S0. cbn [Z.add]. rewrite O3, !total2. change (Z.to_nat 2) with 2%nat. cbn [rsum]. change (Z.of_nat 0) with 0. change (Z.of_nat 1) with 1.
      rewrite !TV by lia. change (powerRZ 1 (-2)) with (/ (1 * (1 * 1)))%R. unfold P, two_by_two. cbn [ent].
      assert (n1 = 1 \/ n1 = 2) as [-> | ->] by lia; assert (n2 = 1 \/ n2 = 2) as [-> | ->] by lia;
      change (1 - 1) with 0; change (2 - 1) with 1; cbn [Z.eqb Pos.eqb]; field.
    - intros o HS. unfold run_on. rewrite run_stages. fold RepX. rewrite (checks_ok flt RepX (m_eigh m) (m_inv m) (m_junk m) op 1 (5 / 2)); [|lia|lia|lia|lia|cbn; lia|lia|lia].
      cbn [bind]. rewrite DI, pbind_ok. unfold pbind at 1, eig_stage. rewrite HN. cbn [Z.ltb Z.compare]. unfold pret at 1.
      unfold pbind at 1, rat_stage. rewrite HNE. unfold amp_stage. rewrite EA, pbind_ok. cbv zeta.
      unfold shows in HS. unfold pbind in HS |- *. change (0 <? 0) with false in *. cbv iota in *. unfold pret in *. 
      destruct (Show_Rats flt _ _ _ s) as [[[[]|e] s2] o2]; [|discriminate]. destruct (Show_Amps flt _ _ _ s2) as [[[[]|e] s3] o3]; [|discriminate].
      injection HS as -> <-. cbn [app]. rewrite !app_nil_r. reflexivity.
  Qed.

  (** Display of one rate, or of one amplitude. *)
  Lemma shows_rate (s : settings) M start dim n1 n2 y : array_blocks M start dim -> dim 0 = 2 -> fs_Lvals (snd M) = [0] -> 0 < nrows (fst M) ->
    plain_formats s (g_rat_format s) (chars "  B(E2: ") (chars ") = ") [] -> g_rat_lst s = [[0; 0; n1; n2]] -> g_amp_lst s = [] -> 1 <= n1 <= 2 -> 1 <= n2 <= 2 ->
    g_rat_fun s (g_rat_TRopAM s) 0 0 (element M start 0 n1 0 n2) = Ok y ->
    shows flt 0 s M [0] s = (Ok tt, s, [header_line flt s (g_rat_sft s) (g_rat_desg s); value_line flt s (chars "  B(E2: ") (chars ") = ") [] 0 n1 0 n2 (y / g_rat_sft s)]).
  Proof.
    intros HA D0 EL NR PF GR GA H1 H2 EY. unfold shows. unfold pbind at 1. change (0 <? 0) with false. cbv iota. unfold pret at 1.
    destruct (C42_quartet flt M start dim (g_rat_num s) (g_rat_fun s) (g_rat_sft s) s (g_rat_format s) _ _ _ (g_rat_desg s) 0 0 n1 n2 HA NR PF) as (_ & Q & _).
    unfold pbind, Show_Rats, Show_Amps, pget. cbn [default]. rewrite GR, GA. unfold pbind. rewrite (Q ltac:(rewrite EL, D0; cbn; lia) y EY). reflexivity.
  Qed.
  Lemma shows_amp (s : settings) M start dim n1 n2 y : array_blocks M start dim -> dim 0 = 2 -> fs_Lvals (snd M) = [0] -> 0 < nrows (fst M) ->
    plain_formats s (g_amp_format s) (chars "  Amp( ") (chars " ) = ") [] -> g_rat_lst s = [] -> g_amp_lst s = [[0; 0; n1; n2]] -> 1 <= n1 <= 2 -> 1 <= n2 <= 2 ->
    g_amp_fun s (g_rat_TRopAM s) 0 0 (element M start 0 n1 0 n2) = Ok y ->
    shows flt 0 s M [0] s = (Ok tt, s, [header_line flt s (g_amp_sft s) (g_amp_desg s); value_line flt s (chars "  Amp( ") (chars " ) = ") [] 0 n1 0 n2 (y / g_amp_sft s)]).
  Proof.
    intros HA D0 EL NR PF GR GA H1 H2 EY. unfold shows. unfold pbind at 1. change (0 <? 0) with false. cbv iota. unfold pret at 1.
    destruct (C42_quartet flt M start dim (g_amp_num s) (g_amp_fun s) (g_amp_sft s) s (g_amp_format s) _ _ _ (g_amp_desg s) 0 0 n1 n2 HA NR PF) as (_ & Q & _).
    unfold pbind, Show_Rats, Show_Amps, pget. cbn [default]. rewrite GR, GA. unfold Show_Mels at 1, pret. unfold pbind. rewrite (Q ltac:(rewrite EL, D0; cbn; lia) y EY). reflexivity.
  Qed.

  Definition rate_settings (n1 n2 : Z) : settings := w_eig_num 0 (w_rat_TRop beta2 (w_rat_lst [[0; 0; n1; n2]] imported)).
  Definition amp_settings (n1 n2 : Z) : settings := w_amp_fun unit_amp_fun (w_amp_lst [[0; 0; n1; n2]] (w_eig_num 0 (w_rat_TRop beta2 imported))).

  (** The rate between states of levels that occur twice depends on the routine. *)
  Theorem C87_degenerate_refuted : exists s M M' o o' x x',
    sound (choosing 1 1 0) /\ sound (choosing 0 0 1) /\ ignores_sign (g_rat_fun s) /\
    run_on flt RP CG (choosing 1 1 0) [] 1 (5 / 2) 0 1 0 0 0 0 0 None s = (Ok ([[0; 0]]%R, Some M, [0]), s, o) /\
    run_on flt RP CG (choosing 0 0 1) [] 1 (5 / 2) 0 1 0 0 0 0 0 None s = (Ok ([[0; 0]]%R, Some M', [0]), s, o') /\
    o = [header_line flt s 1 (chars "transition rates"); value_line flt s (chars "  B(E2: ") (chars ") = ") [] 0 1 0 1 x] /\
    o' = [header_line flt s 1 (chars "transition rates"); value_line flt s (chars "  B(E2: ") (chars ") = ") [] 0 1 0 1 x'] /\
    x = (25 / 4)%R /\ x' = (81 / 4)%R.
  Proof.
    set (s := rate_settings 1 1).
    assert (Z0 : RepX s [] 1%R (5 / 2)%R 0 1 0 0 0 None = Ok (zeros 2)) by reflexivity.
    assert (PF : plain_formats s (g_rat_format s) (chars "  B(E2: ") (chars ") = ") []) by (apply imported_formats).
    assert (QR : forall x, g_rat_fun s (g_rat_TRopAM s) 0 0 x = Ok (x ^ 2 * IZR 1 / IZR 1)%R) by (intros; reflexivity).
    destruct (one_run s [] (zeros 2) 0 0 1 1 0 eq_refl eq_refl eq_refl eq_refl eq_refl Z0 eq_refl eq_refl) as (M & start & dim & HA & D0 & EL & NR & EV & RUN); try lra; try (left; reflexivity).
    { intros i j Hi Hj. cbn. destruct (i =? j), (i =? 0); reflexivity. }
    destruct (one_run s [] (zeros 2) 0 0 0 0 1 eq_refl eq_refl eq_refl eq_refl eq_refl Z0 eq_refl eq_refl) as (M' & start' & dim' & HA' & D0' & EL' & NR' & EV' & RUN'); try lra; try (right; reflexivity).
    { intros i j Hi Hj. cbn. destruct (i =? j), (i =? 0); reflexivity. }
    exists s, M, M'. do 4 eexists. split; [apply choosing_sound; lra|]. split; [apply choosing_sound; lra|]. split; [apply C87_rates|].
    split; [|split; [|split; [|split; [|split]]]].
    - apply RUN. apply (shows_rate s M start dim 1 1 _ HA D0 EL NR PF eq_refl eq_refl ltac:(lia) ltac:(lia) (QR _)).
    - apply RUN'. apply (shows_rate s M' start' dim' 1 1 _ HA' D0' EL' NR' PF eq_refl eq_refl ltac:(lia) ltac:(lia) (QR _)).
    - reflexivity.
    - reflexivity.
    - rewrite EV by lia. rewrite !total2. unfold two_by_two, v_b2. cbn [ent]. change (1 - 1) with 0. cbn [Z.eqb Pos.eqb Z.sub Z.add Z.opp]. change (g_rat_sft s) with 1%R. cbn [pow]. field.
    - rewrite EV' by lia. rewrite !total2. unfold two_by_two, v_b2. cbn [ent]. change (1 - 1) with 0. cbn [Z.eqb Pos.eqb Z.sub Z.add Z.opp]. change (g_rat_sft s) with 1%R. cbn [pow]. field.
  Qed.

  Lemma weight_matrix (s : settings) : g_lam_fun s = lambda_acm_fun ->
    exists D, RepX s weight 1 (5 / 2) 0 1 0 0 0 None = Ok D /\ nrows D = 2 /\ ncols D = 2 /\
      forall i j, 0 <= i < 2 -> 0 <= j < 2 -> ent D i j = if i =? j then (if i =? 0 then 5 / 4 else 9 / 4)%R else 0%R.
  Proof.
    intros HL. destruct (matrix_of s [Radial_S0] v_S0 HL) as (D & ED & D1 & D2 & DV).
    { apply word_S0; [lra|lia|lia]. }
    { repeat constructor. }
    exists D. split; [exact ED|]. split; [exact D1|]. split; [exact D2|]. intros i j Hi Hj. rewrite DV by assumption. unfold v_S0.
    destruct (two_cases i Hi) as [-> | ->], (two_cases j Hj) as [-> | ->]; cbn [Z.eqb Pos.eqb]; lra.
  Qed.

  (** The sign of a printed amplitude depends on the routine, even if no level
      occurs twice. *)
  Theorem C87_sign_refuted : exists s M M' o o' x,
    sound (choosing 1 1 0) /\ sound (choosing 1 (-1) 0) /\ NoDup [5 / 4; 9 / 4]%R /\
    run_on flt RP CG (choosing 1 1 0) weight 1 (5 / 2) 0 1 0 0 0 0 0 None s = (Ok ([[5 / 4; 9 / 4]]%R, Some M, [0]), s, o) /\
    run_on flt RP CG (choosing 1 (-1) 0) weight 1 (5 / 2) 0 1 0 0 0 0 0 None s = (Ok ([[5 / 4; 9 / 4]]%R, Some M', [0]), s, o') /\
    o = [header_line flt s 1 (chars "transition amplitudes"); value_line flt s (chars "  Amp( ") (chars " ) = ") [] 0 1 0 2 x] /\
    o' = [header_line flt s 1 (chars "transition amplitudes"); value_line flt s (chars "  Amp( ") (chars " ) = ") [] 0 1 0 2 (- x)%R] /\
    (0 < x)%R.
  Proof.
    set (s := amp_settings 1 2). destruct (weight_matrix s eq_refl) as (D & ED & D1 & D2 & DV).
    assert (PF : plain_formats s (g_amp_format s) (chars "  Amp( ") (chars " ) = ") []) by (apply imported_formats).
    assert (QR : forall x, g_amp_fun s (g_rat_TRopAM s) 0 0 x = Ok x) by (intros; reflexivity).
    destruct (one_run s weight D (5 / 4) (9 / 4) 1 1 0 eq_refl eq_refl eq_refl eq_refl eq_refl ED D1 D2 DV) as (M & start & dim & HA & D0 & EL & NR & EV & RUN); try lra; try (left; reflexivity).
    destruct (one_run s weight D (5 / 4) (9 / 4) 1 (-1) 0 eq_refl eq_refl eq_refl eq_refl eq_refl ED D1 D2 DV) as (M' & start' & dim' & HA' & D0' & EL' & NR' & EV' & RUN'); try lra; try (left; reflexivity).
    assert (E1 : (element M start 0 1 0 2 / g_amp_sft s = pv (5 / 2) 0)%R).
    { rewrite EV by lia. rewrite !total2. unfold two_by_two, v_b2. cbn [ent]. change (1 - 1) with 0. change (2 - 1) with 1. cbn [Z.eqb Pos.eqb Z.sub Z.add Z.opp Pos.add Z.pos_sub Pos.pred_double]. change (g_amp_sft s) with 1%R. field. }
    assert (E2 : (element M' start' 0 1 0 2 / g_amp_sft s = - pv (5 / 2) 0)%R).
    { rewrite EV' by lia. rewrite !total2. unfold two_by_two, v_b2. cbn [ent]. change (1 - 1) with 0. change (2 - 1) with 1. cbn [Z.eqb Pos.eqb Z.sub Z.add Z.opp Pos.add Z.pos_sub Pos.pred_double]. change (g_amp_sft s) with 1%R. field. }
    exists s, M, M'. do 2 eexists. exists (pv (5 / 2) 0). split; [apply choosing_sound; lra|]. split; [apply choosing_sound; lra|].
    split; [repeat constructor; cbn; lra|]. split; [|split; [|split; [|split]]].
    - apply RUN. apply (shows_amp s M start dim 1 2 _ HA D0 EL NR PF eq_refl eq_refl ltac:(lia) ltac:(lia) (QR _)).
    - apply RUN'. apply (shows_amp s M' start' dim' 1 2 _ HA' D0' EL' NR' PF eq_refl eq_refl ltac:(lia) ltac:(lia) (QR _)).
    - rewrite E1. reflexivity.
    - rewrite E2. reflexivity.
    - unfold pv. apply sqrt_lt_R0. lra.
  Qed.

  (** Two runs that meet the hypotheses of [C87_report]: their amplitudes differ, by
      a sign, and their reports are the same. *)
  Example C87_report_case : exists s M M' start dim o,
    sound (choosing 1 1 0) /\ sound (choosing 1 (-1) 0) /\ Op_Tame weight = true /\ (forall vals, In vals [[5 / 4; 9 / 4]]%R -> NoDup vals) /\
    ignores_sign (g_rat_fun s) /\ g_amp_lst s = [] /\ length o = 2%nat /\
    run_on flt RP CG (choosing 1 1 0) weight 1 (5 / 2) 0 1 0 0 0 0 0 None s = (Ok ([[5 / 4; 9 / 4]]%R, Some M, [0]), s, o) /\
    run_on flt RP CG (choosing 1 (-1) 0) weight 1 (5 / 2) 0 1 0 0 0 0 0 None s = (Ok ([[5 / 4; 9 / 4]]%R, Some M', [0]), s, o) /\
    array_blocks M start dim /\ array_blocks M' start dim /\ occurs_once [5 / 4; 9 / 4]%R 1 /\ occurs_once [5 / 4; 9 / 4]%R 2 /\
    element M start 0 1 0 2 = (- element M' start 0 1 0 2)%R /\ element M start 0 1 0 2 <> 0%R.
  Proof.
    set (s := rate_settings 1 2). destruct (weight_matrix s eq_refl) as (D & ED & D1 & D2 & DV).
    assert (PF : plain_formats s (g_rat_format s) (chars "  B(E2: ") (chars ") = ") []) by (apply imported_formats).
    assert (QR : forall x, g_rat_fun s (g_rat_TRopAM s) 0 0 x = Ok (x ^ 2 * IZR 1 / IZR 1)%R) by (intros; reflexivity).
    destruct (one_run s weight D (5 / 4) (9 / 4) 1 1 0 eq_refl eq_refl eq_refl eq_refl eq_refl ED D1 D2 DV) as (M & start & dim & HA & D0 & EL & NR & EV & RUN); try lra; try (left; reflexivity).
    destruct (one_run s weight D (5 / 4) (9 / 4) 1 (-1) 0 eq_refl eq_refl eq_refl eq_refl eq_refl ED D1 D2 DV) as (M' & start' & dim' & HA' & D0' & EL' & NR' & EV' & RUN'); try lra; try (left; reflexivity).
    specialize (RUN _ (shows_rate s M start dim 1 2 _ HA D0 EL NR PF eq_refl eq_refl ltac:(lia) ltac:(lia) (QR _))).
    specialize (RUN' _ (shows_rate s M' start' dim' 1 2 _ HA' D0' EL' NR' PF eq_refl eq_refl ltac:(lia) ltac:(lia) (QR _))).
    assert (S1 : sound (choosing 1 1 0)) by (apply choosing_sound; lra). assert (S2 : sound (choosing 1 (-1) 0)) by (apply choosing_sound; lra).
    assert (ND : NoDup [5 / 4; 9 / 4]%R) by (repeat constructor; cbn; lra).
    assert (NDs : forall vals, In vals [[5 / 4; 9 / 4]]%R -> NoDup vals) by (intros vals [<- | []]; exact ND).
    destruct (C87_report flt RP CG weight 1 (5 / 2) 0 1 0 0 0 0 0 None s _ _ _ _ _ _ _ _ _ _ _ _ S1 S2 eq_refl NDs (fun _ => proj1 C87_rates) ltac:(intros X; now destruct X) RUN RUN') as (_ & EO).
    rewrite <- EO in RUN'.
    destruct (two_arrays flt RP CG weight 1 (5 / 2) 0 1 0 0 0 0 0 None s _ _ _ _ _ _ _ _ _ _ _ _ S1 S2 eq_refl RUN RUN') as (_ & _ & ES & _).
    assert (SD : start' 0 = start 0 /\ dim' 0 = dim 0).
    { destruct (HA 0) as (G & _); [rewrite EL; now left|]. destruct (HA' 0) as (G' & _); [rewrite EL'; now left|]. rewrite ES, G' in G. injection G as G1 G2. lia. }
    assert (E1 : element M start 0 1 0 2 = pv (5 / 2) 0).
    { rewrite EV by lia. rewrite !total2. unfold two_by_two, v_b2. cbn [ent]. change (1 - 1) with 0. change (2 - 1) with 1. cbn [Z.eqb Pos.eqb Z.sub Z.add Z.opp Pos.add Z.pos_sub Pos.pred_double]. ring. }
    assert (E2 : element M' start 0 1 0 2 = (- pv (5 / 2) 0)%R).
    { transitivity (element M' start' 0 1 0 2); [unfold element; now rewrite (proj1 SD)|]. rewrite EV' by lia. rewrite !total2. unfold two_by_two, v_b2. cbn [ent]. change (1 - 1) with 0. change (2 - 1) with 1. cbn [Z.eqb Pos.eqb Z.sub Z.add Z.opp Pos.add Z.pos_sub Pos.pred_double]. ring. }
    assert (PV : (0 < pv (5 / 2) 0)%R) by (unfold pv; apply sqrt_lt_R0; lra).
    exists s, M, M', start, dim. eexists. split; [exact S1|]. split; [exact S2|]. split; [reflexivity|]. split; [exact NDs|]. split; [apply C87_rates|]. split; [reflexivity|].
    split; [|split; [exact RUN|split; [exact RUN'|]]]; [reflexivity|]. split; [exact HA|]. split.
    - intros L I. pose proof I as I'. rewrite EL' in I'. destruct I' as [<- | []]. destruct SD as (<- & <-). now apply HA'.
    - split; [apply nodup_once; [exact ND|cbn; lia]|]. split; [apply nodup_once; [exact ND|cbn; lia]|]. rewrite E1, E2. split; [ring|]. lra.
  Qed.
End Choices.

Print Assumptions C87_levels.
Print Assumptions C87_strength.
Print Assumptions C87_amplitudes.
Print Assumptions C87_report.
Print Assumptions C87_rates.
Print Assumptions C87_degenerate_refuted.
Print Assumptions C87_sign_refuted.
