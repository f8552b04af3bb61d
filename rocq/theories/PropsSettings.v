(** Properties C32, C33, C34: the settings of globals.py under histories of
    calls. *)

From Coq Require Import String Reals Lra.
From Coq Require Import Lia ZifyBool ZifyNat.
From Verif Require Import PyBase Compat Text Format Operators Settings SettingsFacts.
Open Scope Z_scope.
Ltac Zify.zify_post_hook ::= Z.div_mod_to_equations.

(** ** Specification *)

(** The documented types of the stored settings. *)
Record documented_types (s : settings) : Prop := {
  t_precision : 0 <= g_rel_pre s /\ 0 <= g_rel_wid s /\ 0 <= g_low_pre s;
  t_counts : 0 <= g_eig_num s /\ 0 <= g_rat_num s /\ 0 <= g_amp_num s;
  t_one_length : g_amp_num s = g_rat_num s;
  t_eig_reference : 0 <= g_eig_L s /\ 0 < g_eig_idx s;
  t_rat_reference : 0 <= g_rat_L1 s /\ 0 <= g_rat_L2 s /\ 0 < g_rat_1dx s /\ 0 < g_rat_2dx s;
  t_transition : g_rat_TRopAM s = Z.abs (Op_AM (g_rat_TRop s));
  t_designators : Forall (fun d => (length d <= 5)%nat) (g_rat_lst s) /\
                  Forall (fun d => (length d <= 5)%nat) (g_amp_lst s)
}.

Lemma types_imported : documented_types imported.
Proof. constructor; cbn; try lia; try (split; constructor). Qed.

Ltac field_goal :=
  match goal with H : documented_types _ |- documented_types _ =>
    destruct H as [[? [? ?]] [? [? ?]] ? [? ?] [? [? [? ?]]] ? [? ?]];
    constructor; cbn in *; repeat split; try assumption; try lia
  end.

Ltac field_ok := repeat keeps_step; field_goal.

Section Flt.
  Variable flt : text -> R -> text.
  Notation perform := (perform flt).
  Notation history := (history flt).

  Lemma k_scales a b w : keeps documented_types (ACM_set_scales a b w).
  Proof. unfold ACM_set_scales, ACM_show_scales. field_ok. Qed.
  Lemma k_show_scales w : keeps documented_types (ACM_show_scales w).
  Proof. unfold ACM_show_scales. field_ok. Qed.
  Lemma k_sft f : keeps documented_types (ACM_set_sft_fun f).
  Proof. unfold ACM_set_sft_fun. field_ok. Qed.
  Lemma k_output a b c : keeps documented_types (ACM_set_output a b c).
  Proof. unfold ACM_set_output. field_ok. Qed.
  Lemma k_listln a b : keeps documented_types (ACM_set_listln a b).
  Proof.
    unfold ACM_set_listln. apply keeps_bind; [field_ok|intros _].
    apply keeps_bind; [|intros; field_ok].
    apply keeps_when. intros x. apply keeps_check_nonneg. intros Hx s H.
    unfold sbind, assign. cbn [snd]. field_goal.
  Qed.
  Lemma k_datum a : keeps documented_types (ACM_set_datum a).
  Proof. unfold ACM_set_datum. field_ok. Qed.
  Lemma k_eig_fit a b c : keeps documented_types (ACM_set_eig_fit a b c).
  Proof. unfold ACM_set_eig_fit. field_ok. Qed.
  Lemma k_rat_fit a b c d e w : keeps documented_types (ACM_set_rat_fit flt a b c d e w).
  Proof. unfold ACM_set_rat_fit. field_ok. Qed.
  Lemma k_add_rat l : keeps documented_types (ACM_add_rat_lst l).
  Proof.
    induction l as [|e l IH]; cbn [ACM_add_rat_lst]; [field_ok|].
    apply keeps_bind; [|intros _; exact IH].
    destruct (5 <? zlen e) eqn:E; [apply keeps_ret|].
    intros s H. unfold sbind, get, assign. cbn [snd]. field_goal.
    apply Forall_app. split; [assumption|]. constructor; [|constructor]. unfold zlen in E. lia.
  Qed.
  Lemma k_set_rat l : keeps documented_types (ACM_set_rat_lst l).
  Proof.
    unfold ACM_set_rat_lst. apply keeps_bind; [|intros _; apply k_add_rat].
    repeat keeps_step. field_goal. constructor.
  Qed.
  Lemma k_add_amp l : keeps documented_types (ACM_add_amp_lst l).
  Proof.
    induction l as [|e l IH]; cbn [ACM_add_amp_lst]; [field_ok|].
    apply keeps_bind; [|intros _; exact IH].
    destruct (5 <? zlen e) eqn:E; [apply keeps_ret|].
    intros s H. unfold sbind, get, assign. cbn [snd]. field_goal.
    apply Forall_app. split; [assumption|]. constructor; [|constructor]. unfold zlen in E. lia.
  Qed.
  Lemma k_set_amp l : keeps documented_types (ACM_set_amp_lst l).
  Proof.
    unfold ACM_set_amp_lst. apply keeps_bind; [|intros _; apply k_add_amp].
    repeat keeps_step. field_goal. constructor.
  Qed.
  Lemma k_show_rat w : keeps documented_types (ACM_show_rat_lst flt w).
  Proof. unfold ACM_show_rat_lst. field_ok. Qed.
  Lemma k_show_amp w : keeps documented_types (ACM_show_amp_lst flt w).
  Proof. unfold ACM_show_amp_lst. field_ok. Qed.
  Lemma k_transition o : keeps documented_types (ACM_set_transition o).
  Proof.
    intros s H. unfold ACM_set_transition, sbind, assign, get, sret. cbn [snd]. field_goal.
  Qed.
  Lemma k_rat_form f a b w : keeps documented_types (ACM_set_rat_form flt f a b w).
  Proof. unfold ACM_set_rat_form. field_ok. Qed.
  Lemma k_amp_form f a b w : keeps documented_types (ACM_set_amp_form flt f a b w).
  Proof. unfold ACM_set_amp_form. field_ok. Qed.
  Lemma k_lambda f : keeps documented_types (ACM_set_lambda_fun f).
  Proof. unfold ACM_set_lambda_fun. field_ok. Qed.
  Lemma k_basis c b : keeps documented_types (ACM_set_basis_type c b).
  Proof. unfold ACM_set_basis_type, ACM_set_lambda_fun. field_ok. Qed.

  Lemma k_defaults w : keeps documented_types (ACM_set_defaults flt w).
  Proof.
    unfold ACM_set_defaults.
    do 14 (apply keeps_bind;
      [auto using k_scales, k_output, k_listln, k_datum, k_eig_fit, k_rat_fit, k_set_rat, k_set_amp,
                 k_show_rat, k_show_amp, k_transition, k_rat_form, k_amp_form, k_basis, k_sft|intros _]).
    apply k_scales.
  Qed.

  Lemma perform_types c s : documented_types s -> documented_types (snd (perform c s)).
  Proof.
    intros H. destruct c; cbn [Settings.perform outcome snd];
      [refine (k_scales _ _ _ s H) | refine (k_show_scales _ s H) | refine (k_sft _ s H) | refine (k_output _ _ _ s H) | refine (k_listln _ _ s H) | refine (k_datum _ s H) | refine (k_eig_fit _ _ _ s H) | refine (k_rat_fit _ _ _ _ _ _ s H) | refine (k_set_rat _ s H) | refine (k_add_rat _ s H) | refine (k_show_rat _ s H) | refine (k_set_amp _ s H) | refine (k_add_amp _ s H) | refine (k_show_amp _ s H) | refine (k_transition _ s H) | refine (k_rat_form _ _ _ _ s H) | refine (k_amp_form _ _ _ _ s H) | refine (k_lambda _ s H) | refine (k_basis _ _ s H) | refine (k_defaults _ s H)].
  Qed.

  (** After any sequence of calls, successful or failing, every setting has its
      documented type. *)
  Theorem C32_types : forall cs, documented_types (history cs imported).
  Proof.
    intros cs. pose proof types_imported as H. revert H. generalize imported.
    induction cs as [|c cs IH]; intros s H; [exact H|].
    cbn. apply IH. apply perform_types, H.
  Qed.

  (** The amplitude scale factor is the image of the rate scale factor after a
      successful ACM_set_scales; when the function of the user raises, the two
      factors given are stored all the same and the third is stale. *)
  Theorem C32_scales : forall a b w s s',
    ACM_set_scales a b w s = (Ok tt, s') ->
    g_eig_sft s' = default (g_eig_sft s) a /\ g_rat_sft s' = default (g_rat_sft s) b /\
    g_amp_sft_fun s (g_rat_sft s') = Ok (g_amp_sft s').
  Proof.
    intros a b w s s' H.
    assert (G : exists x, g_amp_sft_fun s (default (g_rat_sft s) b) = Ok x /\
                 s' = w_amp_sft x (w_rat_sft (default (g_rat_sft s) b) (w_eig_sft (default (g_eig_sft s) a) s))).
    { unfold ACM_set_scales in H. destruct s as [].
      destruct a as [a|], b as [b|]; unfold when, sbind, assign, get, lift, sret in H; cbn in H |- *;
        (destruct (g_amp_sft_fun _) as [x|e]; cbn in H; [|discriminate H]);
        (unfold ACM_show_scales, sbind, get, lift, sret in H; cbn in H;
         destruct (0 <? w); cbn in H;
         [ destruct (reciprocal _) as [?|]; cbn in H; [|discriminate H];
           destruct (reciprocal _) as [?|]; cbn in H; [|discriminate H];
           destruct (reciprocal _) as [?|]; cbn in H; [|discriminate H] | ];
         injection H as <-; exists x; split; reflexivity). }
    destruct G as (x & Hx & ->). destruct s. cbn in *. auto.
  Qed.

  (** The designator lists: the designators of at most five numbers, in the
      order given. *)
  Lemma add_rat l : forall s, ACM_add_rat_lst l s =
    let s' := w_rat_lst (g_rat_lst s ++ filter (fun d => Nat.leb (length d) 5) l) s in (Ok (zlen (g_rat_lst s')), s').
  Proof.
    induction l as [|e l IH]; intros s; cbn [ACM_add_rat_lst filter].
    - rewrite app_nil_r. destruct s; reflexivity.
    - replace (5 <? zlen e) with (negb (Nat.leb (length e) 5)) by (unfold zlen; lia).
      destruct (Nat.leb (length e) 5); unfold sbind, get, assign, sret; cbn [negb]; rewrite IH; [|reflexivity].
      cbn. now rewrite <- app_assoc.
  Qed.
  Lemma add_amp l : forall s, ACM_add_amp_lst l s =
    let s' := w_amp_lst (g_amp_lst s ++ filter (fun d => Nat.leb (length d) 5) l) s in (Ok (zlen (g_amp_lst s')), s').
  Proof.
    induction l as [|e l IH]; intros s; cbn [ACM_add_amp_lst filter].
    - rewrite app_nil_r. destruct s; reflexivity.
    - replace (5 <? zlen e) with (negb (Nat.leb (length e) 5)) by (unfold zlen; lia).
      destruct (Nat.leb (length e) 5); unfold sbind, get, assign, sret; cbn [negb]; rewrite IH; [|reflexivity].
      cbn. now rewrite <- app_assoc.
  Qed.
  Theorem C32_designators : forall l s,
    let short := filter (fun d => Nat.leb (length d) 5) l in
    ACM_set_rat_lst (Some l) s = (Ok (zlen short), w_rat_lst short s) /\
    ACM_add_rat_lst l s = (Ok (zlen (g_rat_lst s) + zlen short), w_rat_lst (g_rat_lst s ++ short) s) /\
    ACM_set_amp_lst (Some l) s = (Ok (zlen short), w_amp_lst short s) /\
    ACM_add_amp_lst l s = (Ok (zlen (g_amp_lst s) + zlen short), w_amp_lst (g_amp_lst s ++ short) s).
  Proof.
    intros l s short. unfold ACM_set_rat_lst, ACM_set_amp_lst, sbind, assign. cbn [default].
    rewrite !add_rat, !add_amp. fold short. cbn. unfold zlen. rewrite !app_length, !Nat2Z.inj_add. repeat split.
  Qed.

  (** *** Failing calls *)

  (** ACM_set_eig_fit: validated before anything is stored. *)
  Theorem C33_eig_fit : forall fit L idx s e s',
    ACM_set_eig_fit fit L idx s = (Raise e, s') ->
    e = ValueError /\ s' = s /\ (default 2 L < 0 \/ default 1 idx <= 0).
  Proof.
    intros fit L idx s e s'. unfold ACM_set_eig_fit, sbind, lift, require_posint, require_nonnegint, raise_if, bind.
    destruct (default 2 L <? 0) eqn:E1; [intros H; injection H as <- <-; repeat split; lia|].
    destruct (default 1 idx <? 0) eqn:E2; [intros H; injection H as <- <-; repeat split; lia|].
    destruct (default 1 idx =? 0) eqn:E3; [intros H; injection H as <- <-; repeat split; lia|].
    discriminate.
  Qed.

  (** ACM_set_rat_fit: a rejected argument leaves the settings unchanged.  The
      only other failure is in printing, after everything has been stored. *)
  Theorem C33_rat_fit : forall fit L1 L2 i1 i2 show s e s',
    ACM_set_rat_fit flt fit L1 L2 i1 i2 show s = (Raise e, s') ->
    if (default 2 L1 <? 0) || (default 0 L2 <? 0) || (default 1 i1 <=? 0) || (default 1 i2 <=? 0)
    then e = ValueError /\ s' = s
    else 0 < show /\
         s' = w_rat_2dx (default 1 i2) (w_rat_1dx (default 1 i1) (w_rat_L2 (default 0 L2)
                (w_rat_L1 (default 2 L1) (w_rat_fit (default 100%R fit) s)))) /\
         rat_fit_message flt s' = Raise e.
  Proof.
    intros fit L1 L2 i1 i2 show s e s'.
    unfold ACM_set_rat_fit, sbind, lift, require_posint, require_nonnegint, raise_if, bind.
    destruct (default 2 L1 <? 0) eqn:E1; [intros H; injection H as <- <-; split; reflexivity|].
    destruct (default 0 L2 <? 0) eqn:E2; [intros H; injection H as <- <-; split; reflexivity|].
    destruct (default 1 i1 <? 0) eqn:E3;
      [replace (default 1 i1 <=? 0) with true by lia; intros H; injection H as <- <-; split; reflexivity|].
    destruct (default 1 i1 =? 0) eqn:E4;
      [replace (default 1 i1 <=? 0) with true by lia; intros H; injection H as <- <-; split; reflexivity|].
    replace (default 1 i1 <=? 0) with false by lia.
    destruct (default 1 i2 <? 0) eqn:E5;
      [replace (default 1 i2 <=? 0) with true by lia; intros H; injection H as <- <-; split; reflexivity|].
    destruct (default 1 i2 =? 0) eqn:E6;
      [replace (default 1 i2 <=? 0) with true by lia; intros H; injection H as <- <-; split; reflexivity|].
    replace (default 1 i2 <=? 0) with false by lia. cbn [orb].
    unfold assign, get. cbn [fst snd]. destruct (0 <? show) eqn:E7.
    - destruct (rat_fit_message flt _) as [t|x] eqn:EM; unfold sret; intros H; [discriminate|].
      injection H as <- <-. split; [lia|]. split; [reflexivity|exact EM].
    - unfold sret. discriminate.
  Qed.

  (** The arguments of ACM_set_output and ACM_set_listln are stored one by one:
      a failing call has stored those before the first negative one. *)
  Definition valid (x : option Z) : bool := match x with Some n => 0 <=? n | None => true end.
  Definition stored {A} (w : A -> settings -> settings) (x : option A) (s : settings) : settings :=
    match x with Some n => w n s | None => s end.

  Theorem C33_output : forall a b c s,
    ACM_set_output a b c s =
    if negb (valid a) then (Raise ValueError, s)
    else if negb (valid b) then (Raise ValueError, stored w_rel_pre a s)
    else if negb (valid c) then (Raise ValueError, stored w_rel_wid b (stored w_rel_pre a s))
    else let s' := stored w_low_pre c (stored w_rel_wid b (stored w_rel_pre a s)) in
         (Ok (g_rel_pre s', g_rel_wid s', g_low_pre s'), s').
  Proof.
    intros a b c s. unfold ACM_set_output, valid, stored, when, sbind, lift, require_nonnegint, raise_if, assign, get, sret.
    destruct a as [a|]; [destruct (a <? 0) eqn:Ea; [now replace (0 <=? a) with false by lia|replace (0 <=? a) with true by lia]|];
    (destruct b as [b|]; [destruct (b <? 0) eqn:Eb; [now replace (0 <=? b) with false by lia|replace (0 <=? b) with true by lia]|]);
    (destruct c as [c|]; [destruct (c <? 0) eqn:Ec; [now replace (0 <=? c) with false by lia|replace (0 <=? c) with true by lia]|]);
    reflexivity.
  Qed.

  Theorem C33_listln : forall a b s,
    ACM_set_listln a b s =
    if negb (valid a) then (Raise ValueError, s)
    else if negb (valid b) then (Raise ValueError, stored w_eig_num a s)
    else let s' := stored (fun n s => w_amp_num n (w_rat_num n s)) b (stored w_eig_num a s) in
         (Ok (g_eig_num s', g_rat_num s', g_amp_num s'), s').
  Proof.
    intros a b s. unfold ACM_set_listln, valid, stored, when, sbind, lift, require_nonnegint, raise_if, assign, get, sret.
    destruct a as [a|]; [destruct (a <? 0) eqn:Ea; [now replace (0 <=? a) with false by lia|replace (0 <=? a) with true by lia]|];
    (destruct b as [b|]; [destruct (b <? 0) eqn:Eb; [now replace (0 <=? b) with false by lia|replace (0 <=? b) with true by lia]|]);
    reflexivity.
  Qed.

  (** Hence neither is atomic. *)
  Theorem C33_output_atomic_refuted :
    ~ (forall a b c s e s', ACM_set_output a b c s = (Raise e, s') -> s' = s).
  Proof.
    intros H. specialize (H (Some 9) (Some (-1)) None imported ValueError (w_rel_pre 9 imported) eq_refl).
    apply (f_equal g_rel_pre) in H. discriminate.
  Qed.
  Theorem C33_listln_atomic_refuted :
    ~ (forall a b s e s', ACM_set_listln a b s = (Raise e, s') -> s' = s).
  Proof.
    intros H. specialize (H (Some 9) (Some (-1)) imported ValueError (w_eig_num 9 imported) eq_refl).
    apply (f_equal g_eig_num) in H. discriminate.
  Qed.
  (** ... nor is ACM_set_rat_fit, with a format for rates that has too many
      fields. *)
  Theorem C33_rat_fit_atomic_refuted :
    ~ (forall cs fit L1 L2 i1 i2 show e s', ACM_set_rat_fit flt fit L1 L2 i1 i2 show (history cs imported) = (Raise e, s') ->
         s' = history cs imported).
  Proof.
    intros H.
    specialize (H [SetRatForm None (Some (chars "{} {} {}")) None 0] None (Some 4) None None None 1 IndexError).
    set (s0 := w_rat_desg def_rat_desg (w_rat_format (chars "{} {} {}") (w_rat_fun quad_rat_fun imported))).
    set (s1 := w_rat_2dx 1 (w_rat_1dx 1 (w_rat_L2 0 (w_rat_L1 4 (w_rat_fit 100%R s0))))).
    assert (M : rat_fit_message flt s1 = Raise IndexError) by (vm_compute; reflexivity).
    assert (E : history [SetRatForm None (Some (chars "{} {} {}")) None 0] imported = s0) by reflexivity.
    rewrite E in H. specialize (H s1).
    assert (G : ACM_set_rat_fit flt None (Some 4) None None None 1 s0 = (Raise IndexError, s1)).
    { unfold ACM_set_rat_fit, sbind, lift, assign, get. cbn [default require_posint require_nonnegint raise_if bind Z.ltb Z.eqb Z.compare].
      fold s1. rewrite M. reflexivity. }
    specialize (H G). apply (f_equal g_rat_L1) in H. discriminate.
  Qed.

  (** ACM_set_scales stores both factors before the amplitude factor is
      computed and before the reciprocals are printed. *)
  Theorem C33_scales : forall a b w s e s',
    ACM_set_scales a b w s = (Raise e, s') ->
    g_eig_sft s' = default (g_eig_sft s) a /\ g_rat_sft s' = default (g_rat_sft s) b /\
    ((g_amp_sft_fun s (g_rat_sft s') = Raise e /\ g_amp_sft s' = g_amp_sft s) \/
     (g_amp_sft_fun s (g_rat_sft s') = Ok (g_amp_sft s') /\ e = ZeroDivisionError /\ 0 < w /\
      (g_eig_sft s' = 0 \/ g_rat_sft s' = 0 \/ g_amp_sft s' = 0)%R)).
  Proof.
    assert (R0 : forall x e, reciprocal x = Raise e -> x = 0%R /\ e = ZeroDivisionError).
    { intros x e. unfold reciprocal. destruct (Req_EM_T x 0); [|discriminate]. intros H. injection H as <-. auto. }
    assert (G : forall s w e s', ACM_show_scales w s = (Raise e, s') -> s' = s /\ e = ZeroDivisionError /\ 0 < w /\
                 (g_eig_sft s = 0 \/ g_rat_sft s = 0 \/ g_amp_sft s = 0)%R).
    { intros s w e s'. unfold ACM_show_scales, sbind, get, lift, sret. destruct (0 <? w) eqn:E; [|discriminate].
      cbn [bind]. destruct (reciprocal (g_eig_sft s)) eqn:E1; cbn [bind];
        [destruct (reciprocal (g_rat_sft s)) eqn:E2; cbn [bind];
          [destruct (reciprocal (g_amp_sft s)) eqn:E3; cbn [bind]; [discriminate|]|]|];
        intros H; injection H as <- <-; [apply R0 in E3|apply R0 in E2|apply R0 in E1];
        (split; [reflexivity|]); (split; [tauto|]); (split; [lia|tauto]). }
    intros a b w s e s' H. unfold ACM_set_scales in H.
    set (s1 := w_rat_sft (default (g_rat_sft s) b) (w_eig_sft (default (g_eig_sft s) a) s)).
    assert (E1 : (when a (fun x => assign (w_eig_sft x)) ;;; when b (fun x => assign (w_rat_sft x))) s = (Ok tt, s1)).
    { destruct a, b, s; reflexivity. }
    assert (H' : ((when a (fun x => assign (w_eig_sft x)) ;;; when b (fun x => assign (w_rat_sft x))) ;;;
                  do* s0 <- get ;; do* a0 <- lift (g_amp_sft_fun s0 (g_rat_sft s0)) ;;
                  assign (w_amp_sft a0) ;;; ACM_show_scales w ;;; sret tt) s = (Raise e, s')).
    { rewrite <- H. unfold sbind. destruct a, b; reflexivity. }
    unfold sbind at 1 in H'. rewrite E1 in H'. unfold sbind, get, lift in H'.
    assert (F1 : g_eig_sft s1 = default (g_eig_sft s) a) by (destruct s; reflexivity).
    assert (F2 : g_rat_sft s1 = default (g_rat_sft s) b) by (destruct s; reflexivity).
    assert (F3 : g_amp_sft s1 = g_amp_sft s) by (destruct s; reflexivity).
    assert (F4 : g_amp_sft_fun s1 = g_amp_sft_fun s) by (destruct s; reflexivity).
    clearbody s1. clear E1 H.
    destruct (g_amp_sft_fun s1 (g_rat_sft s1)) as [x|x] eqn:EX.
    - cbn [assign] in H'. unfold assign in H'.
      destruct (ACM_show_scales w (w_amp_sft x s1)) as [[r|r] s2] eqn:ES; [discriminate|].
      injection H' as -> ->. apply G in ES. destruct ES as (-> & -> & Hw & Z0). cbn in Z0 |- *.
      split; [exact F1|]. split; [exact F2|]. right. rewrite <- F4. tauto.
    - injection H' as -> ->. split; [exact F1|]. split; [exact F2|]. left. rewrite <- F4. tauto.
  Qed.

  (** The remaining setters: ACM_set_datum and ACM_set_basis_type are atomic,
      the others never fail with the transition format of the module. *)
  Theorem C33_datum : forall d s e s', ACM_set_datum d s = (Raise e, s') -> e = ValueError /\ s' = s.
  Proof.
    intros d s e s'. unfold ACM_set_datum, sbind, lift, require_nonnegint, raise_if.
    destruct (default 1 d <? 0); [|discriminate]. intros H. injection H as <- <-. auto.
  Qed.
  Theorem C33_basis_type : forall c b s,
    (c < 0 \/ 3 < c -> ACM_set_basis_type c b s = (Raise ValueError, s)) /\
    (0 <= c <= 3 -> exists f, ACM_set_basis_type c b s = (Ok f, w_lam_fun f s)).
  Proof.
    intros c b s. unfold ACM_set_basis_type, sbind, lift, require_nonnegint, raise_if. split.
    - intros [H|H].
      + now replace (c <? 0) with true by lia.
      + replace (c <? 0) with false by lia. replace (c =? 0) with false by lia. replace (c =? 1) with false by lia.
        replace (c =? 2) with false by lia. replace (c =? 3) with false by lia. reflexivity.
    - intros H. replace (c <? 0) with false by lia.
      destruct (c =? 0) eqn:E0; [eexists; reflexivity|]. destruct (c =? 1) eqn:E1; [eexists; reflexivity|].
      destruct (c =? 2) eqn:E2; [eexists; reflexivity|]. replace (c =? 3) with true by lia. eexists; reflexivity.
  Qed.

  (** *** Defaults *)

  (** The settings with the three given ones and otherwise the import-time
      values. *)
  Definition imported_but (tran_format tran_fill : text) (nu_lap : Z) : settings :=
    w_nu_lap nu_lap (w_tran_fill tran_fill (w_tran_format tran_format imported)).

  Lemma math_sqrt_1 : math_sqrt 1 = Ok 1%R.
  Proof. unfold math_sqrt. destruct (Rlt_dec 1 0); [lra|]. now rewrite sqrt_1. Qed.
  Lemma reciprocal_1 : exists x, reciprocal 1 = Ok x.
  Proof. unfold reciprocal. destruct (Req_EM_T 1 0); [lra|]. eexists. reflexivity. Qed.

  Lemma form_default s : g_tran_format s = g_tran_format imported -> exists t, form_message flt s = Ok t.
  Proof. intros H. unfold form_message. rewrite H. eexists. vm_compute. reflexivity. Qed.

  Lemma rat_fit_default s : g_tran_format s = g_tran_format imported -> g_rat_format s = def_rat_format ->
    g_rat_L1 s = 2 -> g_rat_L2 s = 0 -> g_rat_1dx s = 1 -> g_rat_2dx s = 1 -> exists t, rat_fit_message flt s = Ok t.
  Proof.
    intros H1 H2 H3 H4 H5 H6. unfold rat_fit_message. rewrite H1, H2, H3, H4, H5, H6.
    generalize (g_rat_fit s). intros x. eexists. vm_compute. reflexivity.
  Qed.

  Lemma step_ok A B (m : proc A) (f : A -> proc B) s a s' : m s = (Ok a, s') -> sbind m f s = f a s'.
  Proof. intros H. unfold sbind. now rewrite H. Qed.

  Lemma transition_step op s : ACM_set_transition (Some op) s =
    (Ok (op, Z.abs (Op_AM op)), w_rat_TRopAM (Z.abs (Op_AM op)) (w_rat_TRop op s)).
  Proof. reflexivity. Qed.

  Lemma optional_message A (show : Z) (m : settings -> res A) s :
    (0 < show -> exists t, m s = Ok t) ->
    (if 0 <? show then lift (m s) ;;; sret tt else sret tt) s = (Ok tt, s).
  Proof.
    intros H. destruct (0 <? show) eqn:E; [|reflexivity]. destruct H as (t & H); [lia|].
    unfold sbind, lift. now rewrite H.
  Qed.

  (** From any settings, reachable or not, ACM_set_defaults restores the
      import-time values of all but three settings; it can only fail in
      printing, when the transition format has been tampered with. *)
  Theorem C34_defaults : forall s show,
    show <= 0 \/ g_tran_format s = g_tran_format imported ->
    ACM_set_defaults flt show s =
      (Ok tt, imported_but (g_tran_format s) (g_tran_fill s) (g_nu_lap s)).
  Proof.
    intros s show HS. unfold ACM_set_defaults.
    erewrite step_ok by reflexivity. erewrite step_ok by reflexivity. erewrite step_ok by reflexivity.
    erewrite step_ok by reflexivity. erewrite step_ok by apply transition_step.
    assert (FM : forall s', g_tran_format s' = g_tran_format s -> 0 < show -> exists t, form_message flt s' = Ok t).
    { intros s' Hs Hw. apply form_default. destruct HS; [lia|congruence]. }
    erewrite step_ok by
      (unfold ACM_set_rat_form; do 3 (erewrite step_ok by reflexivity); erewrite step_ok by reflexivity;
       erewrite step_ok by (apply optional_message; apply FM; reflexivity); reflexivity).
    erewrite step_ok by
      (unfold ACM_set_amp_form; do 3 (erewrite step_ok by reflexivity); erewrite step_ok by reflexivity;
       erewrite step_ok by (apply optional_message; apply FM; reflexivity); reflexivity).
    erewrite step_ok by reflexivity. erewrite step_ok by reflexivity.
    erewrite step_ok by
      (unfold ACM_set_rat_fit; do 9 (erewrite step_ok by reflexivity); erewrite step_ok by reflexivity;
       erewrite step_ok by
         (apply optional_message; intros Hw; apply rat_fit_default; try reflexivity;
          cbn; destruct HS; [lia|assumption]);
       reflexivity).
    erewrite step_ok by reflexivity. erewrite step_ok by reflexivity.
    erewrite step_ok by (unfold ACM_show_rat_lst, ACM_show_lst; cbn; destruct (0 <? show); reflexivity).
    erewrite step_ok by (unfold ACM_show_amp_lst, ACM_show_lst; cbn; destruct (0 <? show); reflexivity).
    unfold ACM_set_scales. do 2 (erewrite step_ok by reflexivity). erewrite step_ok by reflexivity.
    erewrite step_ok by (unfold lift; cbn; rewrite math_sqrt_1; reflexivity).
    erewrite step_ok by reflexivity.
    erewrite step_ok.
    2: { unfold ACM_show_scales. erewrite step_ok by reflexivity.
         erewrite step_ok by
           (destruct reciprocal_1 as (x & Ex); destruct (0 <? show); [|reflexivity];
            unfold lift; cbn; rewrite Ex; reflexivity).
         reflexivity. }
    reflexivity.
  Qed.

  (** No call changes those three. *)
  Lemma frame_keeps f c s :
    (f = (fun s => (g_tran_format s, g_tran_fill s, g_nu_lap s))) -> f (snd (perform c s)) = f s.
  Proof.
    intros ->. set (s0 := s) at 2. 
    set (P := fun s => (g_tran_format s, g_tran_fill s, g_nu_lap s) = (g_tran_format s0, g_tran_fill s0, g_nu_lap s0)).
    assert (P s) as HP by reflexivity. change (P (snd (perform c s))). clearbody s0. revert s HP.
    assert (AR : forall l, keeps P (ACM_add_rat_lst l)).
    { induction l as [|e l IH]; cbn [ACM_add_rat_lst]; [repeat keeps_step; assumption|].
      apply keeps_bind; [|intros _; exact IH]. repeat keeps_step; assumption. }
    assert (AA : forall l, keeps P (ACM_add_amp_lst l)).
    { induction l as [|e l IH]; cbn [ACM_add_amp_lst]; [repeat keeps_step; assumption|].
      apply keeps_bind; [|intros _; exact IH]. repeat keeps_step; assumption. }
    destruct c; intros s HP; cbn [Settings.perform outcome snd]; revert s HP;
      match goal with |- forall s, P s -> P (snd (?m s)) => change (keeps P m) end;
      unfold ACM_set_defaults, ACM_set_scales, ACM_show_scales, ACM_set_sft_fun, ACM_set_output, ACM_set_listln,
        ACM_set_datum, ACM_set_eig_fit, ACM_set_rat_fit, ACM_set_rat_lst, ACM_show_rat_lst, ACM_show_amp_lst,
        ACM_set_amp_lst, ACM_set_transition, ACM_set_rat_form, ACM_set_amp_form, ACM_set_lambda_fun,
        ACM_set_basis_type, ACM_set_lambda_fun;
      repeat first [apply AR | apply AA | keeps_step]; assumption.
  Qed.

  (** Only ACM_set_lambda_fun, ACM_set_basis_type and ACM_set_defaults change
      the lambda function. *)
  Definition selects_basis (c : setter) : bool :=
    match c with SetLambdaFun _ | SetBasisType _ _ | SetDefaults _ => true | _ => false end.

  Lemma lambda_keeps c s : selects_basis c = false -> g_lam_fun (snd (perform c s)) = g_lam_fun s.
  Proof.
    intros HC. set (s0 := s) at 2. set (P := fun s => g_lam_fun s = g_lam_fun s0).
    assert (P s) as HP by reflexivity. change (P (snd (perform c s))). clearbody s0. revert s HP.
    assert (AR : forall l, keeps P (ACM_add_rat_lst l)).
    { induction l as [|e l IH]; cbn [ACM_add_rat_lst]; [repeat keeps_step; assumption|].
      apply keeps_bind; [|intros _; exact IH]. repeat keeps_step; assumption. }
    assert (AA : forall l, keeps P (ACM_add_amp_lst l)).
    { induction l as [|e l IH]; cbn [ACM_add_amp_lst]; [repeat keeps_step; assumption|].
      apply keeps_bind; [|intros _; exact IH]. repeat keeps_step; assumption. }
    destruct c; try discriminate; intros s HP; cbn [Settings.perform outcome snd]; revert s HP;
      match goal with |- forall s, P s -> P (snd (?m s)) => change (keeps P m) end;
      unfold ACM_set_scales, ACM_show_scales, ACM_set_sft_fun, ACM_set_output, ACM_set_listln,
        ACM_set_datum, ACM_set_eig_fit, ACM_set_rat_fit, ACM_set_rat_lst, ACM_show_rat_lst, ACM_show_amp_lst,
        ACM_set_amp_lst, ACM_set_transition, ACM_set_rat_form, ACM_set_amp_form;
      repeat first [apply AR | apply AA | keeps_step]; assumption.
  Qed.

  Lemma frame_history cs : forall s,
    g_tran_format (history cs s) = g_tran_format s /\ g_tran_fill (history cs s) = g_tran_fill s /\
    g_nu_lap (history cs s) = g_nu_lap s.
  Proof.
    induction cs as [|c cs IH]; intros s; [repeat split; reflexivity|].
    pose proof (frame_keeps _ c s eq_refl) as F. cbv beta in F.
    pose proof (f_equal (fun x => fst (fst x)) F) as F1. pose proof (f_equal (fun x => snd (fst x)) F) as F2.
    pose proof (f_equal snd F) as F3. cbn [fst snd] in F1, F2, F3. clear F.
    destruct (IH (snd (perform c s))) as (I1 & I2 & I3).
    unfold history, Settings.history in *. cbn [fold_left]. rewrite I1, I2, I3. auto.
  Qed.

  (** Whatever calls were made before, successful or failing, ACM_set_defaults
      succeeds and leaves exactly the settings of a fresh import. *)
  Theorem C34_history : forall cs show,
    perform (SetDefaults show) (history cs imported) = (None, imported).
  Proof.
    intros cs show. cbn [Settings.perform]. destruct (frame_history cs imported) as (F1 & F2 & F3).
    rewrite C34_defaults by (right; exact F1). rewrite F1, F2, F3. reflexivity.
  Qed.

  (** Omitted arguments mean the import-time values, not the current ones. *)
  Theorem C34_omitted : forall s,
    snd (ACM_set_eig_fit None None None s)
      = w_eig_idx (g_eig_idx imported) (w_eig_L (g_eig_L imported) (w_eig_fit (g_eig_fit imported) s)) /\
    snd (ACM_set_transition None s) = w_rat_TRopAM 2 (w_rat_TRop (g_rat_TRop imported) s) /\
    snd (ACM_set_rat_form flt None None None 0 s)
      = w_rat_desg (g_rat_desg imported) (w_rat_format (g_rat_format imported) (w_rat_fun (g_rat_fun imported) s)) /\
    snd (ACM_set_amp_form flt None None None 0 s)
      = w_amp_desg (g_amp_desg imported) (w_amp_format (g_amp_format imported) (w_amp_fun (g_amp_fun imported) s)) /\
    snd (ACM_set_sft_fun None s) = w_amp_sft_fun (g_amp_sft_fun imported) s /\
    snd (ACM_set_datum None s) = w_eig_rel (g_eig_rel imported) s /\
    snd (ACM_set_rat_fit flt None None None None None 0 s)
      = w_rat_2dx (g_rat_2dx imported) (w_rat_1dx (g_rat_1dx imported) (w_rat_L2 (g_rat_L2 imported)
          (w_rat_L1 (g_rat_L1 imported) (w_rat_fit (g_rat_fit imported) s)))) /\
    snd (ACM_set_rat_lst None s) = w_rat_lst [] s /\ snd (ACM_set_amp_lst None s) = w_amp_lst [] s.
  Proof. intros s. repeat split. Qed.

  (** Functions given as arguments are stored as they are. *)
  Theorem C34_functions : forall s f g h,
    fst (ACM_set_sft_fun (Some f) s) = Ok f /\ g_amp_sft_fun (snd (ACM_set_sft_fun (Some f) s)) = f /\
    g_rat_fun (snd (ACM_set_rat_form flt (Some g) None None 0 s)) = g /\
    g_amp_fun (snd (ACM_set_amp_form flt (Some g) None None 0 s)) = g /\
    fst (ACM_set_lambda_fun h s) = Ok h /\ g_lam_fun (snd (ACM_set_lambda_fun h s)) = h.
  Proof. intros s f g h. repeat split. Qed.
End Flt.

(** The amplitude scale factor is not always the image of the rate scale factor
    under the function in force: it is recomputed by ACM_set_scales only. *)
Theorem C32_amp_scale_refuted : forall flt,
  ~ (forall cs, g_amp_sft_fun (history flt cs imported) (g_rat_sft (history flt cs imported))
                = Ok (g_amp_sft (history flt cs imported))).
Proof.
  intros flt H. specialize (H [SetScales None (Some 4%R) 0; SetSftFun (Some (fun x => Ok x))]).
  assert (S4 : sqrt 4 = 2%R) by (replace 4%R with (2 * 2)%R by lra; apply sqrt_square; lra).
  cbn in H. unfold math_sqrt in H. destruct (Rlt_dec 4 0); [lra|]. cbn in H.
  injection H as H. rewrite S4 in H. lra.
Qed.

Definition case_history : list setter :=
  [SetOutput (Some 3) (Some (-1)) (Some 8); SetListln None (Some 6); SetListln (Some 5) (Some (-2));
   SetRatLst (Some [[1; 2; 3; 4; 5; 6]; [2; 0]; [4; 2; 1; 1; 2]]);
   SetTransition (Some [(CNum 1, [OSph SpHarm_212; OSph SpHarm_412]); (CNum 2, [])]);
   SetEigFit (Some 1%R) (Some 4) (Some 0); SetBasisType 7 None].
Example C32_case : forall flt,
  let s := history flt case_history imported in
  (g_rel_pre s, g_rel_wid s, g_low_pre s) = (3, 7, 4) /\ (g_eig_num s, g_rat_num s, g_amp_num s) = (5, 6, 6) /\
  g_rat_lst s = [[2; 0]; [4; 2; 1; 1; 2]] /\ g_rat_TRopAM s = 4 /\ g_eig_L s = 2.
Proof. intros flt. repeat split. Qed.
Example C33_case : forall flt,
  fst (perform flt (SetEigFit None (Some 2) (Some 0)) imported) = Some ValueError /\
  fst (perform flt (SetRatFit None (Some (-1)) None None None 1) imported) = Some ValueError /\
  fst (perform flt (SetOutput None (Some (-1)) None) imported) = Some ValueError.
Proof. intros flt. repeat split. Qed.
Example C33_scales_case : forall flt, exists s',
  perform flt (SetScales (Some 0%R) None 1) imported = (Some ZeroDivisionError, s') /\ g_eig_sft s' = 0%R.
Proof.
  intros flt. cbn [perform]. unfold ACM_set_scales. do 2 (erewrite step_ok by reflexivity).
  erewrite step_ok by reflexivity. erewrite step_ok by (unfold lift; cbn; rewrite math_sqrt_1; reflexivity).
  erewrite step_ok by reflexivity. unfold sbind, ACM_show_scales, get, lift, reciprocal. cbn.
  destruct (Req_EM_T 0 0); [|lra]. cbn. eexists. split; reflexivity.
Qed.
Example C34_case : forall flt, history flt case_history imported <> imported.
Proof. intros flt H. apply (f_equal g_rel_pre) in H. discriminate. Qed.

Print Assumptions C32_types.
Print Assumptions C32_scales.
Print Assumptions C32_designators.
Print Assumptions C32_amp_scale_refuted.
Print Assumptions C33_eig_fit.
Print Assumptions C33_rat_fit.
Print Assumptions C33_output.
Print Assumptions C33_listln.
Print Assumptions C33_output_atomic_refuted.
Print Assumptions C33_listln_atomic_refuted.
Print Assumptions C33_rat_fit_atomic_refuted.
Print Assumptions C33_scales.
Print Assumptions C33_datum.
Print Assumptions C33_basis_type.
Print Assumptions C34_defaults.
Print Assumptions C34_history.
Print Assumptions C34_omitted.
Print Assumptions C34_functions.
