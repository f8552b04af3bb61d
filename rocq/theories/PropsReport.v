(** What the procedures of globals.py print: C74. *)

From Coq Require Import String Reals Lra.
From Coq Require Import Lia ZifyBool ZifyNat.
From Verif Require Import PyBase PyFacts Compat Text Format FormatFacts Operators Spherical FullLabels Matrix Settings SettingsFacts
  PropsSettings FullSpace Display DisplayFacts PropsRates Report.
Open Scope Z_scope.
Ltac Zify.zify_post_hook ::= Z.div_mod_to_equations.

(** ** Printing changes nothing else *)

(** Without its output a procedure of Report.v is one of Settings.v. *)
Definition erases {A} (m : prog A) (n : proc A) : Prop := forall s, fst (m s) = n s.

Lemma erases_bind {A B} (m : prog A) n (f : A -> prog B) g :
  erases m n -> (forall a, erases (f a) (g a)) -> erases (pbind m f) (sbind n g).
Proof.
  intros H K s. unfold pbind, sbind. pose proof (H s) as E. destruct (m s) as [[r s1] o1]. cbn [fst] in E. rewrite <- E.
  destruct r as [a|e]; [|reflexivity]. rewrite <- (K a s1). destruct (f a s1) as [[r2 s2] o2]. reflexivity.
Qed.
Lemma erases_silent {A} (m : prog unit) (k : prog A) n : erases m (sret tt) -> erases k n -> erases (pbind m (fun _ => k)) n.
Proof.
  intros H K s. unfold pbind. pose proof (H s) as E. destruct (m s) as [[r s1] o1]. cbn [fst] in E. unfold sret in E. injection E as -> ->.
  rewrite <- (K s). destruct (k s) as [[r2 s2] o2]. reflexivity.
Qed.
Lemma erases_ret {A} (a : A) : erases (pret a) (sret a).
Proof. intros s. reflexivity. Qed.
Lemma erases_raise {A} (m : res A) : erases (praise m) (lift m).
Proof. intros s. reflexivity. Qed.
Lemma erases_get : erases pget get.
Proof. intros s. reflexivity. Qed.
Lemma erases_assign f : erases (passign f) (assign f).
Proof. intros s. reflexivity. Qed.
Lemma erases_print t : erases (print t) (sret tt).
Proof. intros s. reflexivity. Qed.
Lemma erases_shown w m : erases m (sret tt) -> erases (shown w m) (sret tt).
Proof. intros H. unfold shown. destruct (0 <? w); [exact H|apply erases_ret]. Qed.
Lemma erases_when {A} (x : option A) f g : (forall a, erases (f a) (g a)) -> erases (pwhen x f) (when x g).
Proof. intros H. destruct x; [apply H|apply erases_ret]. Qed.
Lemma erases_if {A} (b : bool) (m n : prog A) m' n' : erases m m' -> erases n n' -> erases (if b then m else n) (if b then m' else n').
Proof. destruct b; auto. Qed.
Lemma erases_if0 (b : bool) (m n : prog unit) : erases m (sret tt) -> erases n (sret tt) -> erases (if b then m else n) (sret tt).
Proof. destruct b; auto. Qed.

Ltac silent := first
  [ apply erases_print | apply erases_shown; silent | apply erases_if0; silent
  | apply erases_silent; [silent|silent] ].

(** Lists of designators as the setting procedures leave them: at most five
    numbers each. *)
Definition short_lists (s : settings) : Prop :=
  Forall (fun d => zlen d <= 5) (g_rat_lst s) /\ Forall (fun d => zlen d <= 5) (g_amp_lst s).

Section Report.
  Variable flt : text -> R -> text.
  Variable name_sft : (R -> res R) -> text.
  Variable str_mel : mel_fun -> text.
  Variable str_lam : (Z -> res Z) -> text.
  Variable str_op : OperatorSum -> text.
  Let performR := performR flt name_sft str_mel str_lam str_op.

  Lemma erases_show_scales w : erases (show_scalesR flt w) (ACM_show_scales w).
  Proof.
    apply erases_bind; [apply erases_get|]. intros s. apply erases_bind; [|intros _; apply erases_ret].
    unfold shown. destruct (0 <? w); [|apply erases_ret].
    intros s'. unfold pbind, praise, print, lift. destruct (reciprocal (g_eig_sft s)); [|reflexivity].
    destruct (reciprocal (g_rat_sft s)); [|reflexivity]. destruct (reciprocal (g_amp_sft s)); reflexivity.
  Qed.

  Ltac step := first
    [ apply erases_ret | apply erases_raise | apply erases_get | apply erases_assign | apply erases_show_scales
    | apply erases_if; step | apply erases_when; intros; step
    | apply erases_silent; [silent|step]
    | apply erases_bind; [step|intros; step] ].

  Lemma erases_set_scales a b w : erases (set_scalesR flt a b w) (ACM_set_scales a b w).
  Proof. unfold set_scalesR, ACM_set_scales. step. Qed.
  Lemma erases_sft_fun f w : erases (set_sft_funR name_sft f w) (ACM_set_sft_fun f).
  Proof. unfold set_sft_funR, ACM_set_sft_fun. step. Qed.
  Lemma erases_output a b c w : erases (set_outputR a b c w) (ACM_set_output a b c).
  Proof. unfold set_outputR, ACM_set_output. step. Qed.
  Lemma erases_listln a b w : erases (set_listlnR a b w) (ACM_set_listln a b).
  Proof. unfold set_listlnR, ACM_set_listln. step. Qed.
  Lemma erases_datum a w : erases (set_datumR a w) (ACM_set_datum a).
  Proof. unfold set_datumR, ACM_set_datum. step. Qed.
  Lemma erases_eig_fit a b c w : erases (set_eig_fitR flt a b c w) (ACM_set_eig_fit a b c).
  Proof. unfold set_eig_fitR, ACM_set_eig_fit. step. Qed.
  Lemma erases_transition op w : erases (set_transitionR str_op op w) (ACM_set_transition op).
  Proof. unfold set_transitionR, ACM_set_transition. step. Qed.
  Lemma erases_lambda_fun f w : erases (set_lambda_funR str_lam f w) (ACM_set_lambda_fun f).
  Proof. unfold set_lambda_funR, ACM_set_lambda_fun. step. Qed.
  Lemma erases_basis_type a b w : erases (set_basis_typeR flt str_lam a b w) (ACM_set_basis_type a b).
  Proof.
    unfold set_basis_typeR, ACM_set_basis_type. apply erases_bind; [step|]. intros _. apply erases_bind; [|intros _; step].
    repeat apply erases_if; try (apply erases_silent; [silent|apply erases_lambda_fun]). apply erases_raise.
  Qed.
  Lemma erases_rat_fit a b c d e w : erases (set_rat_fitR flt a b c d e w) (ACM_set_rat_fit flt a b c d e w).
  Proof.
    unfold set_rat_fitR, ACM_set_rat_fit. do 10 (apply erases_bind; [step|intros ?]). apply erases_bind; [|intros _; step].
    unfold shown. apply erases_if; [|step]. unfold rat_fit_message. intros s. unfold pbind, praise, sbind, lift, print, sret.
    destruct (py_format flt (g_tran_format a9) _) as [t1|]; [|reflexivity]. cbn [bind].
    destruct (py_format flt (g_rat_format a9) _) as [t2|]; [|reflexivity]. cbn [bind].
    destruct (py_format flt t2 _) as [t3|]; reflexivity.
  Qed.
  Lemma erases_rat_form a b c w : erases (set_rat_formR flt str_mel a b c w) (ACM_set_rat_form flt a b c w).
  Proof.
    unfold set_rat_formR, ACM_set_rat_form. do 4 (apply erases_bind; [step|intros ?]). apply erases_bind; [|intros _; step].
    unfold shown. apply erases_if; [|step]. unfold form_message. intros s. unfold pbind, praise, sbind, lift, print, sret.
    destruct (py_format flt (g_tran_format a3) _) as [t1|]; reflexivity.
  Qed.
  Lemma erases_amp_form a b c w : erases (set_amp_formR flt str_mel a b c w) (ACM_set_amp_form flt a b c w).
  Proof.
    unfold set_amp_formR, ACM_set_amp_form. do 4 (apply erases_bind; [step|intros ?]). apply erases_bind; [|intros _; step].
    unfold shown. apply erases_if; [|step]. unfold form_message. intros s. unfold pbind, praise, sbind, lift, print, sret.
    destruct (py_format flt (g_tran_format a3) _) as [t1|]; reflexivity.
  Qed.
  Lemma erases_add_rat l : erases (add_rat_lstR l) (ACM_add_rat_lst l).
  Proof.
    induction l as [|d l IH]; cbn [add_rat_lstR ACM_add_rat_lst]; [step|]. apply erases_bind; [|intros _; exact IH].
    apply erases_if; [apply erases_print|step].
  Qed.
  Lemma erases_set_rat l : erases (set_rat_lstR l) (ACM_set_rat_lst l).
  Proof. apply erases_bind; [step|]. intros _. apply erases_add_rat. Qed.
  Lemma erases_add_amp l : erases (add_amp_lstR l) (ACM_add_amp_lst l).
  Proof.
    induction l as [|d l IH]; cbn [add_amp_lstR ACM_add_amp_lst]; [step|]. apply erases_bind; [|intros _; exact IH].
    apply erases_if; [apply erases_print|step].
  Qed.
  Lemma erases_set_amp l : erases (set_amp_lstR l) (ACM_set_amp_lst l).
  Proof. apply erases_bind; [step|]. intros _. apply erases_add_amp. Qed.

  (** *** The listings *)

  Lemma show_entry_formats s ent : show_entry flt s ent = let* fs := list_formats flt s in list_entry flt fs ent.
  Proof.
    unfold show_entry, list_formats. repeat (destruct (py_format flt (g_tran_format s) _); [cbn [bind]|reflexivity]). reflexivity.
  Qed.

  Lemma entries_run fs lst s : Forall (fun d => zlen d <= 5) lst ->
    exists o, pmap (fun ent => if 5 <? zlen ent then pret tt
                     else run* t <- praise (list_entry flt fs ent) ;; print (chars "  " ++ t)) lst s
      = (let* _ := mapM (list_entry flt fs) lst in Ok tt, s, o) /\
      forall lines, mapM (list_entry flt fs) lst = Ok lines -> o = map (app (chars "  ")) lines.
  Proof.
    intros F. induction F as [|d lst H F (o & E & EO)]; [exists []; split; [reflexivity|]; intros lines [= <-]; reflexivity|].
    cbn [pmap mapM]. replace (5 <? zlen d) with false by lia. match goal with |- context [pmap ?f lst] => set (tail := pmap f lst) in * end.
    unfold pbind, praise, print.
    destruct (list_entry flt fs d) as [t|e]; [|exists []; split; [reflexivity|discriminate]].
    cbv iota beta. rewrite E. cbn [bind]. destruct (mapM (list_entry flt fs) lst) as [ls|e]; cbn [bind].
    - eexists. split; [reflexivity|]. intros lines [= <-]. cbn [map app]. now rewrite (EO ls eq_refl).
    - eexists. split; [reflexivity|discriminate].
  Qed.

  (** What a listing does, in terms of the lines of Settings.v. *)
  Lemma show_lst_run lst desg w s : Forall (fun d => zlen d <= 5) lst ->
    let p := show_lstR flt lst desg w s in
    fst p = (let* _ := ACM_show_lst flt s lst w in Ok lst, s) /\
    (w <= 0 -> snd p = []) /\
    (0 < w -> lst = [] -> snd p = [chars "Currently, no " ++ quoted desg ++ chars " are set to be displayed."]) /\
    (0 < w -> lst <> [] -> forall lines, ACM_show_lst flt s lst w = Ok lines ->
       snd p = (chars "Following " ++ quoted desg ++ chars " are set to be displayed:") :: map (app (chars "  ")) lines).
  Proof.
    intros F. cbv zeta. unfold ACM_show_lst.
    assert (FI : filter (fun ent => zlen ent <=? 5) lst = lst).
    { clear - F. induction F as [|x l H F IH]; [reflexivity|]. cbn [filter]. replace (zlen x <=? 5) with true by lia. now rewrite IH. }
    rewrite FI.
    assert (R : show_lstR flt lst desg w s = pbind (shown w (
      if 0 <? zlen lst then
        run* formats <- praise (list_formats flt s) ;;
        run! print (chars "Following " ++ quoted desg ++ chars " are set to be displayed:") ;;
        pmap (fun ent => if 5 <? zlen ent then pret tt
              else run* t <- praise (list_entry flt formats ent) ;; print (chars "  " ++ t)) lst
      else print (chars "Currently, no " ++ quoted desg ++ chars " are set to be displayed."))) (fun _ => pret lst) s).
    { unfold show_lstR. unfold pbind at 1, pget at 1. cbv iota beta. destruct (pbind _ _ s) as [[r s1] o]. reflexivity. }
    rewrite R. clear R. unfold shown. destruct (0 <? w) eqn:W.
    2:{ cbn. repeat split; intros; exfalso; lia. }
    destruct lst as [|d lst0]; [cbn; repeat split; intros; [exfalso; lia|congruence]|].
    replace (0 <? zlen (d :: lst0)) with true by (unfold zlen; cbn [length]; lia). set (lst := d :: lst0) in *.
    assert (EM : mapM (show_entry flt s) lst = let* fs := list_formats flt s in mapM (list_entry flt fs) lst).
    { clear. destruct (list_formats flt s) as [fs|e] eqn:E.
      - cbn [bind]. induction lst as [|x l IH]; [reflexivity|]. cbn [mapM]. rewrite show_entry_formats, E. cbn [bind]. now rewrite IH.
      - unfold lst. cbn [mapM]. rewrite show_entry_formats, E. reflexivity. }
    rewrite EM. destruct (list_formats flt s) as [fs|e]; cbn [bind].
    2:{ unfold pbind, praise. cbn [fst snd]. repeat split; intros; try discriminate; exfalso; lia. }
    destruct (entries_run fs lst s F) as (o & E & EO).
    unfold pbind, praise, print, pret in E |- *. rewrite E.
    destruct (mapM (list_entry flt fs) lst) as [ls|e] eqn:ME; cbn [bind fst snd].
    - split; [reflexivity|]. split; [intros; exfalso; lia|]. split; [discriminate|]. intros _ _ lines [= <-]. rewrite (EO ls eq_refl), app_nil_r. reflexivity.
    - split; [reflexivity|]. split; [intros; exfalso; lia|]. split; [discriminate|]. intros _ _ lines [=].
  Qed.

  Lemma short_reachable cs : short_lists (history flt cs imported).
  Proof.
    destruct (t_designators _ (C32_types flt cs)) as (H1 & H2). split; (eapply Forall_impl; [|eassumption]); intros d Hd; cbn beta in Hd; unfold zlen; lia.
  Qed.

  Lemma erases_show_rat w s : Forall (fun d => zlen d <= 5) (g_rat_lst s) -> fst (show_rat_lstR flt w s) = ACM_show_rat_lst flt w s.
  Proof.
    intros H. unfold show_rat_lstR, ACM_show_rat_lst, pbind, pget, sbind, get, lift.
    destruct (show_lst_run (g_rat_lst s) (g_rat_desg s) w s H) as (E & _).
    destruct (show_lstR _ _ _ _ s) as [[r s1] o]. cbn [fst] in *. rewrite E. destruct (ACM_show_lst _ _ _ _); reflexivity.
  Qed.
  Lemma erases_show_amp w s : Forall (fun d => zlen d <= 5) (g_amp_lst s) -> fst (show_amp_lstR flt w s) = ACM_show_amp_lst flt w s.
  Proof.
    intros H. unfold show_amp_lstR, ACM_show_amp_lst, pbind, pget, sbind, get, lift.
    destruct (show_lst_run (g_amp_lst s) (g_amp_desg s) w s H) as (E & _).
    destruct (show_lstR _ _ _ _ s) as [[r s1] o]. cbn [fst] in *. rewrite E. destruct (ACM_show_lst _ _ _ _); reflexivity.
  Qed.

  Lemma erases_at {A B} (m : prog A) n (f : A -> prog B) g s : fst (m s) = n s ->
    (forall a s', n s = (Ok a, s') -> fst (f a s') = g a s') -> fst (pbind m f s) = sbind n g s.
  Proof.
    intros E K. unfold pbind, sbind. destruct (m s) as [[r s1] o1]. cbn [fst] in E. rewrite <- E in *.
    destruct r as [a|e]; [|reflexivity]. specialize (K a s1 eq_refl). destruct (f a s1) as [[r2 s2] o2]. exact K.
  Qed.

  Lemma erases_last (m : prog unit) n (k : prog unit) : erases m n -> erases k (sret tt) -> erases (pbind m (fun _ => k)) n.
  Proof.
    intros H K s. unfold pbind. pose proof (H s) as E. destruct (m s) as [[r s1] o1]. cbn [fst] in E. rewrite <- E.
    destruct r as [[]|e]; [|reflexivity]. pose proof (K s1) as E2. destruct (k s1) as [[r2 s2] o2]. cbn [fst] in *. exact E2.
  Qed.

  Lemma erases_defaults w : erases (set_defaultsR flt name_sft str_mel str_lam str_op w) (ACM_set_defaults flt w).
  Proof.
    unfold set_defaultsR, ACM_set_defaults.
    do 10 (apply erases_bind; [auto using erases_output, erases_listln, erases_datum, erases_basis_type, erases_transition,
      erases_rat_form, erases_amp_form, erases_sft_fun, erases_eig_fit, erases_rat_fit|intros _]).
    intros s. apply erases_at; [apply erases_set_rat|]. intros a1 s1 [= <- <-].
    apply erases_at; [apply erases_set_amp|]. intros a2 s2 [= <- <-].
    apply erases_at; [apply erases_show_rat; constructor|]. intros a3 s3 E3.
    assert (s3 = w_amp_lst [] (w_rat_lst [] s)) as ->.
    { unfold ACM_show_rat_lst, sbind, get, lift in E3. destruct (ACM_show_lst _ _ _ _); [|discriminate]. now injection E3. }
    apply erases_at; [apply erases_show_amp; constructor|]. intros a4 s4 _.
    apply erases_last; [apply erases_set_scales|]. apply erases_shown, erases_print.
  Qed.

  (** Whatever it prints, a call raises what the model of the settings says and
      leaves the settings it says. *)
  Theorem C74_same_effect : forall cs c w,
    let s := history flt cs imported in
    let '(x, s', _) := performR c w s in perform flt c s = (x, s').
  Proof.
    intros cs c w s. pose proof (short_reachable cs) as (S1 & S2). fold s in S1, S2.
    assert (G : forall A (m : prog A) (n : proc A), fst (m s) = n s -> let '(x, s', _) := result (m s) in outcome (n s) = (x, s')).
    { intros A m n E. rewrite <- E. destruct (m s) as [[r s1] o]. reflexivity. }
    destruct c; cbn [performR Report.performR perform]; unfold performR; cbn [Report.performR];
      (apply G; first [apply erases_set_scales | apply erases_show_scales | apply erases_sft_fun | apply erases_output | apply erases_listln
        | apply erases_datum | apply erases_eig_fit | apply erases_rat_fit | apply erases_set_rat | apply erases_add_rat | now apply erases_show_rat
        | apply erases_set_amp | apply erases_add_amp | now apply erases_show_amp | apply erases_transition | apply erases_rat_form
        | apply erases_amp_form | apply erases_lambda_fun | apply erases_basis_type | apply erases_defaults]).
  Qed.

  (** ** Silence *)

  (** The value of [show] a call is made with; the procedures that build the
      lists take none. *)
  Definition show_of (c : setter) (w : Z) : Z :=
    match c with
    | SetScales _ _ w' | ShowScales w' | SetRatFit _ _ _ _ _ w' | ShowRatLst w' | ShowAmpLst w'
    | SetRatForm _ _ _ w' | SetAmpForm _ _ _ w' | SetDefaults w' => w'
    | SetRatLst _ | AddRatLst _ | SetAmpLst _ | AddAmpLst _ => 0
    | _ => w
    end.

  (** The text of a tuple of at least two numbers. *)
  Definition tuple_text (d : list Z) : text :=
    chars "(" ++ match d with [] => [] | x :: l => dec_int x ++ flat_map (fun y => chars ", " ++ dec_int y) l end ++ chars ")".
  Lemma repr_text d : repr_tuple d = tuple_text d.
  Proof.
    unfold repr_tuple, tuple_text. f_equal. f_equal. induction d as [|x l IH]; [reflexivity|]. destruct l as [|y l]; [cbn; now rewrite app_nil_r|].
    change (join_comma_space (map dec_int (x :: y :: l))) with (dec_int x ++ chars ", " ++ join_comma_space (map dec_int (y :: l))).
    rewrite IH. cbn [flat_map]. now rewrite !app_assoc.
  Qed.

  (** A line for each designator with more than five numbers. *)
  Definition complaints (c : setter) : list text :=
    let bad what l := map (fun d => chars "  Bad " ++ chars what ++ chars " specification: " ++ tuple_text d) (filter (fun d => Nat.ltb 5 (length d)) l) in
    match c with
    | SetRatLst (Some l) | AddRatLst l => bad "transition rate"%string l
    | SetAmpLst (Some l) | AddAmpLst l => bad "amplitude"%string l
    | _ => []
    end.

  Definition mute {A} (m : prog A) : Prop := forall s, snd (m s) = [].
  Lemma mute_bind {A B} (m : prog A) (f : A -> prog B) : mute m -> (forall a, mute (f a)) -> mute (pbind m f).
  Proof.
    intros H K s. unfold pbind. pose proof (H s) as E. destruct (m s) as [[[a|e] s1] o1]; cbn [snd] in *; [|exact E].
    pose proof (K a s1) as E2. destruct (f a s1) as [[r2 s2] o2]. cbn [snd] in *. now subst.
  Qed.
  Lemma mute_shown w m : w <= 0 -> mute (shown w m).
  Proof. intros H. unfold shown. replace (0 <? w) with false by lia. intros s. reflexivity. Qed.
  Lemma mute_when {A} (x : option A) f : (forall a, mute (f a)) -> mute (pwhen x f).
  Proof. intros H. destruct x; [apply H|]. intros s. reflexivity. Qed.
  Lemma mute_if {A} (b : bool) (m n : prog A) : mute m -> mute n -> mute (if b then m else n).
  Proof. destruct b; auto. Qed.
  Ltac hush := first
    [ apply mute_shown; lia | apply mute_when; intros; hush | apply mute_if; hush
    | apply mute_bind; [hush|intros; hush] | (intros ?; reflexivity) ].

  Lemma mute_show_scales w : w <= 0 -> mute (show_scalesR flt w).
  Proof. intros H. unfold show_scalesR. hush. Qed.
  Lemma mute_set_scales a b w : w <= 0 -> mute (set_scalesR flt a b w).
  Proof. intros H. unfold set_scalesR, show_scalesR. hush. Qed.
  Lemma mute_sft f w : w <= 0 -> mute (set_sft_funR name_sft f w).
  Proof. intros H. unfold set_sft_funR. hush. Qed.
  Lemma mute_output a b c w : w <= 0 -> mute (set_outputR a b c w).
  Proof. intros H. unfold set_outputR. hush. Qed.
  Lemma mute_listln a b w : w <= 0 -> mute (set_listlnR a b w).
  Proof. intros H. unfold set_listlnR. hush. Qed.
  Lemma mute_datum a w : w <= 0 -> mute (set_datumR a w).
  Proof. intros H. unfold set_datumR. hush. Qed.
  Lemma mute_eig_fit a b c w : w <= 0 -> mute (set_eig_fitR flt a b c w).
  Proof. intros H. unfold set_eig_fitR. hush. Qed.
  Lemma mute_rat_fit a b c d e w : w <= 0 -> mute (set_rat_fitR flt a b c d e w).
  Proof. intros H. unfold set_rat_fitR. hush. Qed.
  Lemma mute_transition op w : w <= 0 -> mute (set_transitionR str_op op w).
  Proof. intros H. unfold set_transitionR. hush. Qed.
  Lemma mute_rat_form a b c w : w <= 0 -> mute (set_rat_formR flt str_mel a b c w).
  Proof. intros H. unfold set_rat_formR. hush. Qed.
  Lemma mute_amp_form a b c w : w <= 0 -> mute (set_amp_formR flt str_mel a b c w).
  Proof. intros H. unfold set_amp_formR. hush. Qed.
  Lemma mute_lambda f w : w <= 0 -> mute (set_lambda_funR str_lam f w).
  Proof. intros H. unfold set_lambda_funR. hush. Qed.
  Lemma mute_basis a b w : w <= 0 -> mute (set_basis_typeR flt str_lam a b w).
  Proof. intros H. unfold set_basis_typeR, set_lambda_funR. hush. Qed.
  Lemma mute_show_lst l d w : w <= 0 -> mute (show_lstR flt l d w).
  Proof. intros H. unfold show_lstR. hush. Qed.
  Lemma mute_show_rat w : w <= 0 -> mute (show_rat_lstR flt w).
  Proof. intros H. unfold show_rat_lstR. apply mute_bind; [hush|]. intros s. now apply mute_show_lst. Qed.
  Lemma mute_show_amp w : w <= 0 -> mute (show_amp_lstR flt w).
  Proof. intros H. unfold show_amp_lstR. apply mute_bind; [hush|]. intros s. now apply mute_show_lst. Qed.
  Lemma mute_defaults w : w <= 0 -> mute (set_defaultsR flt name_sft str_mel str_lam str_op w).
  Proof.
    intros H. unfold set_defaultsR.
    repeat (apply mute_bind; [auto using mute_output, mute_listln, mute_datum, mute_basis, mute_transition, mute_rat_form, mute_amp_form,
      mute_sft, mute_eig_fit, mute_rat_fit, mute_show_rat, mute_show_amp, mute_set_scales; try (intros s; reflexivity)|intros _]).
    hush.
  Qed.

  Lemma add_rat_prints l : forall s, snd (add_rat_lstR l s) = complaints (AddRatLst l).
  Proof.
    induction l as [|d l IH]; intros s; [reflexivity|]. cbn [add_rat_lstR complaints filter]. unfold pbind at 1.
    replace (Nat.ltb 5 (length d)) with (5 <? zlen d) by (unfold zlen; lia).
    destruct (5 <? zlen d).
    - unfold print. cbv iota beta. pose proof (IH s) as E. destruct (add_rat_lstR l s) as [[r s1] o]. cbn [snd] in *. rewrite E, repr_text. reflexivity.
    - unfold pbind, pget, passign. cbv iota beta. pose proof (IH (w_rat_lst (g_rat_lst s ++ [d]) s)) as E.
      destruct (add_rat_lstR l _) as [[r s1] o]. cbn [snd] in *. rewrite E. reflexivity.
  Qed.
  Lemma add_amp_prints l : forall s, snd (add_amp_lstR l s) = complaints (AddAmpLst l).
  Proof.
    induction l as [|d l IH]; intros s; [reflexivity|]. cbn [add_amp_lstR complaints filter]. unfold pbind at 1.
    replace (Nat.ltb 5 (length d)) with (5 <? zlen d) by (unfold zlen; lia).
    destruct (5 <? zlen d).
    - unfold print. cbv iota beta. pose proof (IH s) as E. destruct (add_amp_lstR l s) as [[r s1] o]. cbn [snd] in *. rewrite E, repr_text. reflexivity.
    - unfold pbind, pget, passign. cbv iota beta. pose proof (IH (w_amp_lst (g_amp_lst s ++ [d]) s)) as E.
      destruct (add_amp_lstR l _) as [[r s1] o]. cbn [snd] in *. rewrite E. reflexivity.
  Qed.

  Theorem C74_silent : forall c w s, show_of c w <= 0 -> snd (performR c w s) = complaints c.
  Proof.
    intros c w s H. assert (G : forall A (p : res A * settings * list text), snd (result p) = snd p) by (intros A [[r s1] o]; reflexivity).
    unfold performR. destruct c; cbn [Report.performR show_of complaints] in *; rewrite G;
      first [ apply mute_set_scales, H | apply mute_show_scales, H | apply mute_sft, H | apply mute_output, H | apply mute_listln, H
        | apply mute_datum, H | apply mute_eig_fit, H | apply mute_rat_fit, H | apply mute_show_rat, H | apply mute_show_amp, H
        | apply mute_transition, H | apply mute_rat_form, H | apply mute_amp_form, H | apply mute_lambda, H | apply mute_basis, H
        | apply mute_defaults, H | apply add_rat_prints | apply add_amp_prints | idtac ].
    - unfold set_rat_lstR, pbind, passign. cbv iota beta. pose proof (add_rat_prints (default [] l) (w_rat_lst [] s)) as E.
      destruct (add_rat_lstR _ _) as [[r s1] o]. cbn [snd] in *. rewrite E. destruct l; reflexivity.
    - unfold set_amp_lstR, pbind, passign. cbv iota beta. pose proof (add_amp_prints (default [] l) (w_amp_lst [] s)) as E.
      destruct (add_amp_lstR _ _) as [[r s1] o]. cbn [snd] in *. rewrite E. destruct l; reflexivity.
  Qed.

  (** ** What a report says *)

  Lemma dec_int_parse n m c t c' t' : ~ 48 <= c <= 57 -> ~ 48 <= c' <= 57 -> c <= 127 -> c' <= 127 ->
    dec_int n ++ c :: t = dec_int m ++ c' :: t' -> n = m /\ c :: t = c' :: t'.
  Proof.
    intros Hc Hc' K K' E.
    assert (P : forall x y, 0 <= x -> 0 <= y -> dec x ++ c :: t = dec y ++ c' :: t' -> x = y /\ c :: t = c' :: t').
    { intros x y Hx Hy Exy. destruct (dec_ok ascii_digit ascii_digits_ok x Hx) as ((_ & D1) & V1).
      destruct (dec_ok ascii_digit ascii_digits_ok y Hy) as ((_ & D2) & V2).
      destruct (run_unique ascii_digit (dec x) (c :: t) (dec y) (c' :: t') D1 D2) as (A & B); try exact Exy.
      - cbn. apply (ascii_nondigit ascii_digit ascii_digits_ok); lia.
      - cbn. apply (ascii_nondigit ascii_digit ascii_digits_ok); lia.
      - split; [|exact B]. rewrite <- V1, <- V2. now rewrite A. }
    assert (Hd : forall x u, 0 <= x -> exists h r, dec x ++ u = h :: r /\ 48 <= h <= 57).
    { intros x u Hx. destruct (dec_digits x Hx) as (N & F). destruct (dec x) as [|h r]; [contradiction|]. inversion F; subst. cbn. eauto. }
    unfold dec_int in E. destruct (n <? 0) eqn:N, (m <? 0) eqn:M.
    - change (45 :: (dec (- n) ++ c :: t) = 45 :: (dec (- m) ++ c' :: t')) in E. injection E as E. apply P in E; lia || (destruct E as (E1 & E2); split; [lia|exact E2]).
    - exfalso. destruct (Hd m (c' :: t') ltac:(lia)) as (h & r & Eh & Rh). rewrite Eh in E. change (45 :: (dec (- n) ++ c :: t) = h :: r) in E. injection E as E _. lia.
    - exfalso. destruct (Hd n (c :: t) ltac:(lia)) as (h & r & Eh & Rh). rewrite Eh in E. change (h :: r = 45 :: (dec (- m) ++ c' :: t')) in E. injection E as E _. lia.
    - apply P; assumption || lia.
  Qed.

  Ltac unfold_run := unfold result, pwhen, pbind, praise, passign, pget, pret, print, shown, require_posint, require_nonnegint, raise_if, bind.

  (** A call that raises prints nothing; otherwise the lines are these. *)
  Definition output_report (s : settings) : list text :=
    [dec_int (g_rel_pre s) ++ chars " decimal places for each displayed value,";
     dec_int (g_rel_wid s) ++ chars " total digits for each displayed value,";
     chars "except " ++ dec_int (g_low_pre s) ++ chars " decimal places for lowest (absolute) eigenvalue."].
  Lemma output_run a b d w s : 0 < w ->
    let '(x, s1, o) := performR (SetOutput a b d) w s in o = match x with Some _ => [] | None => output_report s1 end.
  Proof.
    intros H. unfold performR. cbn [Report.performR]. unfold set_outputR. unfold_run. replace (0 <? w) with true by lia.
    destruct a as [a|]; [destruct (a <? 0); [reflexivity|]|]; (destruct b as [b|]; [destruct (b <? 0); [reflexivity|]|]);
      (destruct d as [d|]; [destruct (d <? 0); [reflexivity|]|]); reflexivity.
  Qed.

  Definition listln_report (s : settings) : list text :=
    [chars "Display lowest " ++ dec_int (g_eig_num s) ++ chars " eigenvalue(s) at each L.";
     chars "Display lowest " ++ dec_int (g_rat_num s) ++ chars " rate/amplitude(s) in each list."].
  Lemma listln_run a b w s : 0 < w ->
    let '(x, s1, o) := performR (SetListln a b) w s in o = match x with Some _ => [] | None => listln_report s1 end.
  Proof.
    intros H. unfold performR. cbn [Report.performR]. unfold set_listlnR. unfold_run. replace (0 <? w) with true by lia.
    destruct a as [a|]; [destruct (a <? 0); [reflexivity|]|]; (destruct b as [b|]; [destruct (b <? 0); [reflexivity|]|]); reflexivity.
  Qed.

  Definition datum_report (s : settings) : list text :=
    [if g_eig_rel s then chars "Eigenvalues displayed relative to minimal value." else chars "Absolute eigenvalues displayed."].
  Lemma datum_run a w s : 0 < w ->
    let '(x, s1, o) := performR (SetDatum a) w s in o = match x with Some _ => [] | None => datum_report s1 end.
  Proof.
    intros H. unfold performR. cbn [Report.performR]. unfold set_datumR. unfold_run. replace (0 <? w) with true by lia.
    destruct (default 1 a <? 0); [reflexivity|]. cbn [g_eig_rel w_eig_rel]. destruct s; cbn. destruct (0 <? default 1 a); reflexivity.
  Qed.

  Definition eig_fit_report (s : settings) : list text :=
    [chars "In ACM_Adapt, the scaling factor for relative eigenvalues is chosen such that" ++ newline ++
     chars "that for the " ++ dec_int (g_eig_L s) ++ chars "(" ++ dec_int (g_eig_idx s) ++ chars ") state is " ++ flt (chars "f") (g_eig_fit s)].
  Lemma eig_fit_run a b d w s : 0 < w ->
    let '(x, s1, o) := performR (SetEigFit a b d) w s in o = match x with Some _ => [] | None => eig_fit_report s1 end.
  Proof.
    intros H. unfold performR. cbn [Report.performR]. unfold set_eig_fitR. unfold_run. cbv zeta. replace (0 <? w) with true by lia.
    destruct (default 2 b <? 0); [reflexivity|]. destruct (default 1 d <? 0); [reflexivity|]. destruct (default 1 d =? 0); [reflexivity|]. reflexivity.
  Qed.

  Definition basis_report (choice : Z) (abeta0 : option R) : list text :=
    [if choice =? 0 then chars "Using the constant lambda basis."
     else if choice =? 1 then chars "Using the harmonic oscillator basis with lambda_v = lambda_0 + v."
     else if choice =? 2 then chars "Using the ACM parity basis."
     else chars "Using integer Davidson basis for potential with minimum at " ++ flt [] (default 0%R abeta0) ++ chars " (dimensionless)."].
  Lemma basis_run a b w s : 0 < w ->
    let '(x, s1, o) := performR (SetBasisType a b) w s in
    o = match x with Some _ => [] | None => basis_report a b end /\ (x = None <-> 0 <= a <= 3).
  Proof.
    intros H. unfold performR. cbn [Report.performR]. unfold set_basis_typeR, set_lambda_funR. unfold_run. replace (0 <? w) with true by lia.
    unfold basis_report. destruct (a <? 0) eqn:E; [split; [reflexivity|]; split; [discriminate|lia]|].
    destruct (a =? 0) eqn:E0; [split; [reflexivity|]; split; [lia|reflexivity]|].
    destruct (a =? 1) eqn:E1; [split; [reflexivity|]; split; [lia|reflexivity]|].
    destruct (a =? 2) eqn:E2; [split; [reflexivity|]; split; [lia|reflexivity]|].
    destruct (a =? 3) eqn:E3; [split; [reflexivity|]; split; [lia|reflexivity]|].
    split; [reflexivity|]. split; [discriminate|lia].
  Qed.

  (** The procedures that check their arguments print nothing when they raise. *)
  Theorem C74_refusal_prints_nothing : forall c w s e s' o,
    match c with SetOutput _ _ _ | SetListln _ _ | SetDatum _ | SetEigFit _ _ _ | SetRatFit _ _ _ _ _ _ | SetBasisType _ _ => True | _ => False end ->
    performR c w s = (Some e, s', o) -> o = [].
  Proof.
    intros c w s e s' o Hc E.
    destruct (0 <? show_of c w) eqn:W.
    2:{ pose proof (C74_silent c w s ltac:(lia)) as Q. rewrite E in Q. cbn [snd] in Q. rewrite Q. destruct c; reflexivity || contradiction. }
    destruct c; try contradiction; cbn [show_of] in W.
    - pose proof (output_run rel_pre rel_wid low_pre w s ltac:(lia)) as Q. now rewrite E in Q.
    - pose proof (listln_run eig_num rat_num w s ltac:(lia)) as Q. now rewrite E in Q.
    - pose proof (datum_run datflag w s ltac:(lia)) as Q. now rewrite E in Q.
    - pose proof (eig_fit_run fit L idx w s ltac:(lia)) as Q. now rewrite E in Q.
    - unfold performR in E. cbn [Report.performR] in E. unfold set_rat_fitR in E. revert E. unfold_run. rewrite W.
      destruct (default 2 L1 <? 0); [now intros [= _ _ <-]|]. destruct (default 0 L2 <? 0); [now intros [= _ _ <-]|].
      destruct (default 1 idx1 <? 0); [now intros [= _ _ <-]|]. destruct (default 1 idx1 =? 0); [now intros [= _ _ <-]|].
      destruct (default 1 idx2 <? 0); [now intros [= _ _ <-]|]. destruct (default 1 idx2 =? 0); [now intros [= _ _ <-]|].
      set (z := w_rat_2dx _ _). destruct (py_format flt (g_tran_format z) _); [|now intros [= _ _ <-]].
      destruct (py_format flt (g_rat_format z) _); [|now intros [= _ _ <-]]. destruct (py_format flt _ _); [discriminate|now intros [= _ _ <-]].
    - pose proof (basis_run choice abeta0 w s ltac:(lia)) as Q. rewrite E in Q. now destruct Q as (Q & _).
  Qed.

  (** What is reported can be read off the report: two calls of the same
      procedure that print the same leave the same values. *)
  Theorem C74_output_tells : forall a b d w s a' b' d' w' s' s1 s2 o, 0 < w -> 0 < w' ->
    performR (SetOutput a b d) w s = (None, s1, o) -> performR (SetOutput a' b' d') w' s' = (None, s2, o) ->
    g_rel_pre s1 = g_rel_pre s2 /\ g_rel_wid s1 = g_rel_wid s2 /\ g_low_pre s1 = g_low_pre s2.
  Proof.
    intros a b d w s a' b' d' w' s' s1 s2 o H H' E E'. pose proof (output_run a b d w s H) as Q. pose proof (output_run a' b' d' w' s' H') as Q'.
    rewrite E in Q. rewrite E' in Q'. subst o. unfold output_report in Q'. injection Q' as Q1 Q2 Q3. repeat split.
    - apply dec_int_parse in Q1; lia || apply Q1.
    - apply dec_int_parse in Q2; lia || apply Q2.
    - apply dec_int_parse in Q3; lia || apply Q3.
  Qed.

  Theorem C74_listln_tells : forall a b w s a' b' w' s' s1 s2 o, 0 < w -> 0 < w' ->
    performR (SetListln a b) w s = (None, s1, o) -> performR (SetListln a' b') w' s' = (None, s2, o) ->
    g_eig_num s1 = g_eig_num s2 /\ g_rat_num s1 = g_rat_num s2.
  Proof.
    intros a b w s a' b' w' s' s1 s2 o H H' E E'. pose proof (listln_run a b w s H) as Q. pose proof (listln_run a' b' w' s' H') as Q'.
    rewrite E in Q. rewrite E' in Q'. subst o. unfold listln_report in Q'. injection Q' as Q1 Q2. split.
    - apply dec_int_parse in Q1; lia || apply Q1.
    - apply dec_int_parse in Q2; lia || apply Q2.
  Qed.

  Theorem C74_datum_tells : forall a w s a' w' s' s1 s2 o, 0 < w -> 0 < w' ->
    performR (SetDatum a) w s = (None, s1, o) -> performR (SetDatum a') w' s' = (None, s2, o) -> g_eig_rel s1 = g_eig_rel s2.
  Proof.
    intros a w s a' w' s' s1 s2 o H H' E E'. pose proof (datum_run a w s H) as Q. pose proof (datum_run a' w' s' H') as Q'.
    rewrite E in Q. rewrite E' in Q'. subst o. unfold datum_report in Q'. destruct (g_eig_rel s1), (g_eig_rel s2); reflexivity || discriminate.
  Qed.

  Theorem C74_eig_fit_tells : forall a b d w s a' b' d' w' s' s1 s2 o, 0 < w -> 0 < w' ->
    performR (SetEigFit a b d) w s = (None, s1, o) -> performR (SetEigFit a' b' d') w' s' = (None, s2, o) ->
    g_eig_L s1 = g_eig_L s2 /\ g_eig_idx s1 = g_eig_idx s2 /\ flt (chars "f") (g_eig_fit s1) = flt (chars "f") (g_eig_fit s2).
  Proof.
    intros a b d w s a' b' d' w' s' s1 s2 o H H' E E'. pose proof (eig_fit_run a b d w s H) as Q. pose proof (eig_fit_run a' b' d' w' s' H') as Q'.
    rewrite E in Q. rewrite E' in Q'. subst o. unfold eig_fit_report in Q'. injection Q' as Q1.
    apply dec_int_parse in Q1; try lia. destruct Q1 as (A & Q1). injection Q1 as Q1.
    apply dec_int_parse in Q1; try lia. destruct Q1 as (B & Q1). injection Q1 as Q1. now repeat split.
  Qed.

  Theorem C74_basis_tells : forall a b w s a' b' w' s' s1 s2 o, 0 < w -> 0 < w' ->
    performR (SetBasisType a b) w s = (None, s1, o) -> performR (SetBasisType a' b') w' s' = (None, s2, o) -> a = a'.
  Proof.
    intros a b w s a' b' w' s' s1 s2 o H H' E E'. pose proof (basis_run a b w s H) as Q. pose proof (basis_run a' b' w' s' H') as Q'.
    rewrite E in Q. rewrite E' in Q'. destruct Q as (Q & D), Q' as (Q' & D'). subst o. unfold basis_report in Q'.
    pose proof (proj1 D eq_refl). pose proof (proj1 D' eq_refl).
    destruct (a =? 0) eqn:?, (a =? 1) eqn:?, (a =? 2) eqn:?, (a' =? 0) eqn:?, (a' =? 1) eqn:?, (a' =? 2) eqn:?; try lia; discriminate.
  Qed.

  (** The report on a transition operator tells its angular momentum, and
      whether that is determinate. *)
  Theorem C74_transition_tells : forall op w s op' w' s' s1 s2 o, 0 < w -> 0 < w' ->
    performR (SetTransition (Some op)) w s = (None, s1, o) -> performR (SetTransition (Some op')) w' s' = (None, s2, o) ->
    Op_AM op = Op_AM op'.
  Proof.
    intros op w s op' w' s' s1 s2 o H H' E E'. unfold performR in *. cbn [Report.performR default] in *. unfold set_transitionR in *.
    revert E E'. unfold_run. cbn [default]. replace (0 <? w) with true by lia. replace (0 <? w') with true by lia.
    destruct (0 <=? Op_AM op) eqn:B, (0 <=? Op_AM op') eqn:B'; intros E E'; injection E as _ <-; injection E' as _ _ E'; try discriminate.
    - apply dec_int_parse in E'; try lia. 
    - apply dec_int_parse in E'; try lia.
  Qed.

  (** The number told is the angular momentum that has been set, which is never
      negative. *)
  Theorem C74_transition_number : forall op w s s1 o, 0 < w ->
    performR (SetTransition (Some op)) w s = (None, s1, o) ->
    0 <= g_rat_TRopAM s1 /\
    o = [chars "In ACM_Scale and ACM_Adapt, transition matrix elements now calculated for the operator:" ++ newline ++ g_rat_desg s ++ str_op op;
         chars "(This has " ++ (if 0 <=? Op_AM op then chars "angular momentum " else chars "indeterminate angular momentum: maximum ")
           ++ dec_int (g_rat_TRopAM s1) ++ chars ")." ++ newline].
  Proof.
    intros op w s s1 o H E. unfold performR in *. cbn [Report.performR default] in *. unfold set_transitionR in *.
    revert E. unfold_run. cbn [default]. replace (0 <? w) with true by lia.
    destruct (0 <=? Op_AM op) eqn:B; intros E; injection E as <- <-; cbn [g_rat_TRopAM w_rat_TRopAM]; (split; [lia|]).
    - now rewrite Z.abs_eq by lia.
    - now rewrite Z.abs_neq by lia.
  Qed.

  (** The report of ACM_set_amp_form tells the designation and the format ... *)

  Definition names : list farg := [FStr (chars "L_i"); FStr (chars "j_i"); FStr (chars "L_f"); FStr (chars "j_f")].
  Lemma names_filled s : g_tran_format s = g_tran_format imported -> py_format flt (g_tran_format s) names = Ok (chars "L_i(j_i) -> L_f(j_f)").
  Proof. intros ->. vm_compute. reflexivity. Qed.

  Theorem C74_amp_form_tells : forall f a b w cs f' a' b' w' cs' s1 s2 o, 0 < w -> 0 < w' ->
    performR (SetAmpForm f a b w) 0 (history flt cs imported) = (None, s1, o) ->
    performR (SetAmpForm f' a' b' w') 0 (history flt cs' imported) = (None, s2, o) ->
    g_amp_desg s1 = g_amp_desg s2 /\ g_amp_format s1 = g_amp_format s2 /\ str_mel (g_amp_fun s1) = str_mel (g_amp_fun s2).
  Proof.
    intros f a b w cs f' a' b' w' cs' s1 s2 o H H' E E'. destruct (frame_history flt cs imported) as (F & _). destruct (frame_history flt cs' imported) as (F' & _).
    set (s := history flt cs imported) in *. set (s' := history flt cs' imported) in *.
    unfold performR in *. cbn [Report.performR] in *. unfold set_amp_formR in *.
    revert E E'. unfold_run. replace (0 <? w) with true by lia. replace (0 <? w') with true by lia.
    set (z := w_amp_desg _ (w_amp_format _ (w_amp_fun _ s))). set (z' := w_amp_desg _ (w_amp_format _ (w_amp_fun _ s'))).
    fold names. rewrite (names_filled z F), (names_filled z' F'). intros E E'. injection E as <- <-. injection E' as <- E1 E2 E3.
    do 2 apply app_inv_tail in E1. do 2 apply app_inv_tail in E2. apply app_inv_tail in E3.
    repeat split; symmetry; (exact E1 || exact E2 || exact E3).
  Qed.

  (** ... that of ACM_set_rat_form the format and the procedure, but not the
      designation, which it never prints. *)
  Theorem C74_rat_form_tells : forall f a b w cs f' a' b' w' cs' s1 s2 o, 0 < w -> 0 < w' ->
    performR (SetRatForm f a b w) 0 (history flt cs imported) = (None, s1, o) ->
    performR (SetRatForm f' a' b' w') 0 (history flt cs' imported) = (None, s2, o) ->
    g_rat_format s1 = g_rat_format s2 /\ str_mel (g_rat_fun s1) = str_mel (g_rat_fun s2).
  Proof.
    intros f a b w cs f' a' b' w' cs' s1 s2 o H H' E E'. destruct (frame_history flt cs imported) as (F & _). destruct (frame_history flt cs' imported) as (F' & _).
    set (s := history flt cs imported) in *. set (s' := history flt cs' imported) in *.
    unfold performR in *. cbn [Report.performR] in *. unfold set_rat_formR in *.
    revert E E'. unfold_run. replace (0 <? w) with true by lia. replace (0 <? w') with true by lia.
    set (z := w_rat_desg _ (w_rat_format _ (w_rat_fun _ s))). set (z' := w_rat_desg _ (w_rat_format _ (w_rat_fun _ s'))).
    fold names. rewrite (names_filled z F), (names_filled z' F'). intros E E'. injection E as <- <-. injection E' as <- E1 E2.
    apply app_inv_tail in E1. apply app_inv_tail in E2.
    repeat split; symmetry; (exact E1 || exact E2).
  Qed.

  Theorem C74_rat_form_desg_refuted :
    ~ (forall b b' s1 s2 o, performR (SetRatForm None None (Some b) 1) 0 imported = (None, s1, o) ->
         performR (SetRatForm None None (Some b') 1) 0 imported = (None, s2, o) -> g_rat_desg s1 = g_rat_desg s2).
  Proof.
    intros H. unfold performR in H. cbn [Report.performR] in H. unfold set_rat_formR in H.
    revert H. unfold_run. change (0 <? 1) with true. cbn [default]. fold names.
    intros H. specialize (H (chars "rates") (chars "strengths")).
    rewrite !names_filled in H by reflexivity. specialize (H _ _ _ eq_refl eq_refl). vm_compute in H. discriminate H.
  Qed.

  Lemma start_get {A} (f : settings -> prog A) s : pbind pget f s = f s s.
  Proof. unfold pbind, pget. now destruct (f s s) as ((r, x), o). Qed.

  (** A listing is a heading and the lines of C56, indented; with an empty
      list, one line. *)
  Theorem C74_listing : forall cs w, 0 < w ->
    let s := history flt cs imported in
    (forall lines, g_rat_lst s <> [] -> ACM_show_lst flt s (g_rat_lst s) w = Ok lines ->
       performR (ShowRatLst w) 0 s = (None, s, (chars "Following " ++ quoted (g_rat_desg s) ++ chars " are set to be displayed:") :: map (app (chars "  ")) lines)) /\
    (g_rat_lst s = [] -> performR (ShowRatLst w) 0 s = (None, s, [chars "Currently, no " ++ quoted (g_rat_desg s) ++ chars " are set to be displayed."])) /\
    (forall lines, g_amp_lst s <> [] -> ACM_show_lst flt s (g_amp_lst s) w = Ok lines ->
       performR (ShowAmpLst w) 0 s = (None, s, (chars "Following " ++ quoted (g_amp_desg s) ++ chars " are set to be displayed:") :: map (app (chars "  ")) lines)) /\
    (g_amp_lst s = [] -> performR (ShowAmpLst w) 0 s = (None, s, [chars "Currently, no " ++ quoted (g_amp_desg s) ++ chars " are set to be displayed."])).
  Proof.
    intros cs w H. destruct (short_reachable cs) as (P & Q). cbv zeta. set (s := history flt cs imported) in *.
    assert (G : forall lst desg, Forall (fun d => zlen d <= 5) lst ->
      (forall lines, lst <> [] -> ACM_show_lst flt s lst w = Ok lines ->
        result (show_lstR flt lst desg w s) = (None, s, (chars "Following " ++ quoted desg ++ chars " are set to be displayed:") :: map (app (chars "  ")) lines)) /\
      (lst = [] -> result (show_lstR flt lst desg w s) = (None, s, [chars "Currently, no " ++ quoted desg ++ chars " are set to be displayed."]))).
    { intros lst desg F. destruct (show_lst_run lst desg w s F) as (A & _ & B & C). split.
      - intros lines N E. specialize (C H N lines E). rewrite E in A. destruct (show_lstR flt lst desg w s) as ((r, s0), o). cbn in A, C. injection A as -> ->. now subst o.
      - intros N. subst lst. specialize (B H eq_refl). unfold ACM_show_lst in A. revert A.
        replace (0 <? w) with true by lia. cbn [filter mapM bind]. intros A.
        destruct (show_lstR flt [] desg w s) as ((r, s0), o). cbn [fst snd] in A, B. injection A as -> ->. now subst o. }
    unfold performR. cbn [Report.performR]. unfold show_rat_lstR, show_amp_lstR. rewrite !start_get.
    destruct (G _ (g_rat_desg s) P) as (A & B). destruct (G _ (g_amp_desg s) Q) as (C & D).
    auto.
  Qed.

  (** With a scale equal to zero [ACM_show_scales] raises ZeroDivisionError
      when it gets to it, after the lines of the scales before. *)
  Definition scale_line (start : text) (x : R) (stop : text) : text := start ++ chars " to be multiplied by " ++ flt [] (/ x)%R ++ stop.
  Theorem C74_scales : forall w s, 0 < w ->
    let l1 := scale_line (chars "Relative eigenenergies") (g_eig_sft s) (chars ";") in
    let l2 := scale_line (quoted (g_rat_desg s)) (g_rat_sft s) (chars ";") in
    let l3 := scale_line (quoted (g_amp_desg s)) (g_amp_sft s) (chars ".") in
    (g_eig_sft s = 0%R -> performR (ShowScales w) 0 s = (Some ZeroDivisionError, s, [])) /\
    (g_eig_sft s <> 0%R -> g_rat_sft s = 0%R -> performR (ShowScales w) 0 s = (Some ZeroDivisionError, s, [l1])) /\
    (g_eig_sft s <> 0%R -> g_rat_sft s <> 0%R -> g_amp_sft s = 0%R -> performR (ShowScales w) 0 s = (Some ZeroDivisionError, s, [l1; l2])) /\
    (g_eig_sft s <> 0%R -> g_rat_sft s <> 0%R -> g_amp_sft s <> 0%R -> performR (ShowScales w) 0 s = (None, s, [l1; l2; l3])).
  Proof.
    intros w s H. cbv zeta. unfold performR. cbn [Report.performR]. unfold show_scalesR. unfold_run. unfold reciprocal.
    replace (0 <? w) with true by lia.
    repeat split; intros; destruct (Req_EM_T (g_eig_sft s) 0); try contradiction; try reflexivity;
      destruct (Req_EM_T (g_rat_sft s) 0); try contradiction; try reflexivity;
      destruct (Req_EM_T (g_amp_sft s) 0); try contradiction; reflexivity.
  Qed.

  (** [ACM_set_defaults(1)] announces the transition operator under the
      designation in force before the call. *)
  Lemma chain {A B} (m : prog A) (f : A -> prog B) s a s1 o1 r s2 o2 :
    m s = (Ok a, s1, o1) -> f a s1 = (r, s2, o2) -> pbind m f s = (r, s2, o1 ++ o2).
  Proof. unfold pbind. intros -> ->. reflexivity. Qed.

  Definition default_lines (desg : text) : list text :=
    [ chars "2 decimal places for each displayed value,";
      chars "7 total digits for each displayed value,";
      chars "except 4 decimal places for lowest (absolute) eigenvalue.";
      chars "Display lowest 4 eigenvalue(s) at each L.";
      chars "Display lowest 4 rate/amplitude(s) in each list.";
      chars "Eigenvalues displayed relative to minimal value.";
      chars "Using the ACM parity basis.";
      chars "In ACM_Scale and ACM_Adapt, transition matrix elements now calculated for the operator:" ++ newline ++ desg ++ str_op quad_op;
      chars "(This has angular momentum 2)." ++ newline;
      chars "These are calculated from the (alternative reduced) transition matrix elements" ++ newline ++
        chars "using the procedure: " ++ quoted (str_mel quad_rat_fun);
      chars "Each will be output using the format:" ++ newline ++ chars "    B(E2: {}) = {} L_i(j_i) -> L_f(j_f) *";
      chars "ACM_Scale and ACM_Adapt now set to display " ++ quoted (chars "transition amplitudes") ++ chars " second.";
      chars "These are calculated from the (alternative reduced) transition matrix elements" ++ newline ++
        chars "using the procedure: " ++ quoted (str_mel quad_amp_fun) ++ chars ".";
      chars "Each will be output using the format:" ++ newline ++ chars "  " ++ def_amp_format ++ chars " L_i(j_i) -> L_f(j_f) *";
      quoted (chars "transition amplitudes") ++ chars " scaling factor calculated using the procedure: " ++ name_sft math_sqrt ++ chars ".";
      chars "In ACM_Adapt, the scaling factor for relative eigenvalues is chosen such that" ++ newline ++
        chars "that for the 2(1) state is " ++ flt (chars "f") 6%R;
      chars "In ACM_Adapt, the scaling factor for " ++ quoted (chars "transition rates") ++ chars " is chosen such that" ++ newline ++
        chars "  B(E2: 2(1) -> 0(1)) = " ++ flt (chars "f") 100%R;
      chars "Currently, no " ++ quoted (chars "transition rates") ++ chars " are set to be displayed.";
      chars "Currently, no " ++ quoted (chars "transition amplitudes") ++ chars " are set to be displayed.";
      chars "Relative eigenenergies to be multiplied by " ++ flt [] (/ 1)%R ++ chars ";";
      quoted (chars "transition rates") ++ chars " to be multiplied by " ++ flt [] (/ 1)%R ++ chars ";";
      quoted (chars "transition amplitudes") ++ chars " to be multiplied by " ++ flt [] (/ sqrt 1)%R ++ chars ".";
      [] ].

  Lemma defaults_shown w s : 0 < w -> set_defaultsR flt name_sft str_mel str_lam str_op w s = set_defaultsR flt name_sft str_mel str_lam str_op 1 s.
  Proof.
    intros H. unfold set_defaultsR, set_outputR, set_listlnR, set_datumR, set_basis_typeR, set_transitionR, set_rat_formR, set_amp_formR,
      set_sft_funR, set_eig_fitR, set_rat_fitR, show_rat_lstR, show_amp_lstR, show_lstR, set_scalesR, show_scalesR, shown.
    replace (0 <? w) with true by lia. reflexivity.
  Qed.


  (** The stages that format and compute. *)
  Lemma rat_form_stage s : g_tran_format s = g_tran_format imported ->
    set_rat_formR flt str_mel (Some quad_rat_fun) (Some def_rat_format) (Some def_rat_desg) 1 s =
    let s' := w_rat_desg def_rat_desg (w_rat_format def_rat_format (w_rat_fun quad_rat_fun s)) in
    (Ok (quad_rat_fun, def_rat_format, def_rat_desg), s', firstn 2 (skipn 9 (default_lines []))).
  Proof.
    intros F. unfold set_rat_formR. unfold_run. change (0 <? 1) with true. cbn [default]. fold names.
    rewrite names_filled by exact F. reflexivity.
  Qed.

  Lemma amp_form_stage s : g_tran_format s = g_tran_format imported ->
    set_amp_formR flt str_mel (Some quad_amp_fun) (Some def_amp_format) (Some def_amp_desg) 1 s =
    let s' := w_amp_desg def_amp_desg (w_amp_format def_amp_format (w_amp_fun quad_amp_fun s)) in
    (Ok (quad_amp_fun, def_amp_format, def_amp_desg), s', firstn 3 (skipn 11 (default_lines []))).
  Proof.
    intros F. unfold set_amp_formR. unfold_run. change (0 <? 1) with true. cbn [default]. fold names.
    rewrite names_filled by exact F. reflexivity.
  Qed.

  Lemma rat_fit_stage s : g_tran_format s = g_tran_format imported -> g_rat_format s = def_rat_format -> g_rat_desg s = def_rat_desg ->
    set_rat_fitR flt (Some 100%R) (Some 2) (Some 0) (Some 1) (Some 1) 1 s =
    let s' := w_rat_2dx 1 (w_rat_1dx 1 (w_rat_L2 0 (w_rat_L1 2 (w_rat_fit 100%R s)))) in
    (Ok (100%R, 2, 0, 1, 1), s', firstn 1 (skipn 16 (default_lines []))).
  Proof.
    intros F G D. unfold set_rat_fitR. cbn [default]. unfold_run. change (0 <? 1) with true. change (1 <? 0) with false. change (2 <? 0) with false. change (0 <? 0) with false.
    change (1 <=? 0) with false. cbv iota beta.
    cbn [g_tran_format g_rat_format g_rat_desg g_rat_L1 g_rat_L2 g_rat_1dx g_rat_2dx g_rat_fit w_rat_2dx w_rat_1dx w_rat_L2 w_rat_L1 w_rat_fit].
    rewrite F, G, D.
    replace (py_format flt (g_tran_format imported) [FStr (chars "{:d}"); FStr (chars "{:d}"); FStr (chars "{:d}"); FStr (chars "{:d}")])
      with (Ok (chars "{:d}({:d}) -> {:d}({:d})")) by (vm_compute; reflexivity).
    replace (py_format flt def_rat_format [FStr (chars "{:d}({:d}) -> {:d}({:d})"); FStr (chars "{:f}")])
      with (Ok (chars "  B(E2: {:d}({:d}) -> {:d}({:d})) = {:f}")) by (vm_compute; reflexivity).
    replace (py_format flt (chars "  B(E2: {:d}({:d}) -> {:d}({:d})) = {:f}") [FInt 2; FInt 1; FInt 0; FInt 1; FFlt 100%R])
      with (Ok (chars "  B(E2: 2(1) -> 0(1)) = " ++ flt (chars "f") 100%R)).
    2: { cbv -[app]. rewrite ?app_nil_r. reflexivity. }
    reflexivity.
  Qed.

  Lemma scales_stage s : g_amp_sft_fun s = math_sqrt -> g_rat_desg s = def_rat_desg -> g_amp_desg s = def_amp_desg ->
    set_scalesR flt (Some 1%R) (Some 1%R) 1 s =
    (Ok tt, w_amp_sft (sqrt 1) (w_rat_sft 1%R (w_eig_sft 1%R s)), firstn 3 (skipn 19 (default_lines []))).
  Proof.
    intros F D D'. unfold set_scalesR, show_scalesR. unfold_run. change (0 <? 1) with true.
    cbn [g_eig_sft g_rat_sft g_amp_sft g_amp_sft_fun g_rat_desg g_amp_desg w_eig_sft w_rat_sft w_amp_sft]. rewrite F, D, D'.
    unfold math_sqrt. destruct (Rlt_dec 1 0) as [L|_]; [exfalso; lra|].
    cbn [g_eig_sft g_rat_sft g_amp_sft g_amp_sft_fun g_rat_desg g_amp_desg w_eig_sft w_rat_sft w_amp_sft]. rewrite ?D, ?D'.
    unfold reciprocal. destruct (Req_EM_T 1 0) as [L|_]; [exfalso; lra|].
    destruct (Req_EM_T (sqrt 1) 0) as [L|_]; [exfalso; rewrite sqrt_1 in L; lra|].
    reflexivity.
  Qed.

  Lemma defaults_run s : g_tran_format s = g_tran_format imported -> exists s', g_rat_desg s' = def_rat_desg /\
    set_defaultsR flt name_sft str_mel str_lam str_op 1 s = (Ok tt, s', default_lines (g_rat_desg s)).
  Proof.
    intros F. eexists. split; cycle 1. unfold set_defaultsR.
    { etransitivity.
    { eapply chain; [reflexivity|]. eapply chain; [reflexivity|]. eapply chain; [reflexivity|]. eapply chain; [reflexivity|].
      eapply chain; [reflexivity|].
      eapply chain; [apply rat_form_stage; exact F|].
      eapply chain; [apply amp_form_stage; exact F|].
      eapply chain; [reflexivity|]. eapply chain; [reflexivity|].
      eapply chain; [apply rat_fit_stage; [exact F|reflexivity|reflexivity]|].
      eapply chain; [reflexivity|]. eapply chain; [reflexivity|].
      eapply chain; [reflexivity|]. eapply chain; [reflexivity|].
      eapply chain; [apply scales_stage; reflexivity|]. reflexivity. }
      reflexivity. }
    reflexivity.
  Qed.

  Theorem C74_defaults : forall cs w, 0 < w ->
    let s := history flt cs imported in
    let '(e, s', o) := performR (SetDefaults w) 0 s in
    e = None /\ o = default_lines (g_rat_desg s) /\ g_rat_desg s' = chars "transition rates".
  Proof.
    intros cs w H s. unfold performR. cbn [Report.performR]. rewrite defaults_shown by exact H.
    destruct (frame_history flt cs imported) as (F & _). destruct (defaults_run s F) as (s' & E).
    destruct E as (D & E). rewrite E. cbn [result]. auto.
  Qed.

  (** So two calls print the same exactly if the designations before them
      were the same; although the settings they leave are the same (C34). *)
  Theorem C74_defaults_same : forall cs w cs' w', 0 < w -> 0 < w' ->
    snd (performR (SetDefaults w) 0 (history flt cs imported)) = snd (performR (SetDefaults w') 0 (history flt cs' imported)) <->
    g_rat_desg (history flt cs imported) = g_rat_desg (history flt cs' imported).
  Proof.
    intros cs w cs' w' H H'. pose proof (C74_defaults cs w H) as P. pose proof (C74_defaults cs' w' H') as P'. cbv zeta in P, P'.
    destruct (performR (SetDefaults w) 0 _) as ((e, t), o). destruct (performR (SetDefaults w') 0 _) as ((e', t'), o').
    destruct P as (_ & P & _). destruct P' as (_ & P' & _). cbn [snd]. rewrite P, P'. split; [|now intros ->].
    intros E. unfold default_lines in E.
    apply (f_equal (fun l => nth 7 l [])) in E. cbn [nth] in E. apply app_inv_head in E. apply app_inv_head in E. now apply app_inv_tail in E.
  Qed.

  Theorem C74_defaults_same_refuted :
    ~ (forall cs, snd (performR (SetDefaults 1) 0 (history flt cs imported)) = snd (performR (SetDefaults 1) 0 imported)).
  Proof.
    intros H. specialize (H [SetRatForm None None (Some (chars "strengths")) 0]).
    change imported with (history flt [] imported) in H at 2. apply C74_defaults_same in H; try lia.
    vm_compute in H. discriminate H.
  Qed.
End Report.

(** Examples, with floats printed as one question mark. *)
Definition flt0 (spec : text) (x : R) : text := chars "?".
Definition report0 := performR flt0 (fun _ => chars "f") (fun _ => chars "g") (fun _ => chars "h") (fun _ => chars "op").
Example report_transition : snd (report0 (SetTransition None) 1 imported) =
  [chars "In ACM_Scale and ACM_Adapt, transition matrix elements now calculated for the operator:" ++ newline ++ chars "transition ratesop";
   chars "(This has angular momentum 2)." ++ newline].
Proof. vm_compute. reflexivity. Qed.
Example report_listing : snd (report0 (ShowRatLst 1) 0 (history flt0 [AddRatLst [[4; 2]; [2; 0; 1; 1]]] imported)) =
  [chars "Following " ++ quoted (chars "transition rates") ++ chars " are set to be displayed:";
   chars "  4(j_i) -> 2(j_f)"; chars "  2(0) -> 1(1)"].
Proof. vm_compute. reflexivity. Qed.
Example report_rejected : snd (report0 (AddRatLst [[1; 2; 3; 4; 5; 6]; [2]]) 0 imported) =
  [chars "  Bad transition rate specification: (1, 2, 3, 4, 5, 6)"].
Proof. vm_compute. reflexivity. Qed.
Example report_refused : report0 (SetOutput (Some 3) (Some (-1)) None) 1 imported = (Some ValueError, w_rel_pre 3 imported, []).
Proof. reflexivity. Qed.
Example report_forms :
  fst (fst (report0 (SetRatForm None None (Some (chars "strengths")) 1) 0 imported)) = None /\
  fst (fst (report0 (SetAmpForm None None (Some (chars "strengths")) 1) 0 imported)) = None.
Proof. vm_compute. auto. Qed.
Example report_zero_scale : let s := w_rat_sft 0%R imported in
  g_eig_sft s <> 0%R /\ g_rat_sft s = 0%R.
Proof. split; [cbn; lra|reflexivity]. Qed.

Print Assumptions C74_same_effect.
Print Assumptions C74_silent.
Print Assumptions C74_refusal_prints_nothing.
Print Assumptions C74_output_tells.
Print Assumptions C74_listln_tells.
Print Assumptions C74_datum_tells.
Print Assumptions C74_eig_fit_tells.
Print Assumptions C74_basis_tells.
Print Assumptions C74_transition_tells.
Print Assumptions C74_transition_number.
Print Assumptions C74_amp_form_tells.
Print Assumptions C74_rat_form_tells.
Print Assumptions C74_rat_form_desg_refuted.
Print Assumptions C74_listing.
Print Assumptions C74_scales.
Print Assumptions C74_defaults.
Print Assumptions C74_defaults_same.
Print Assumptions C74_defaults_same_refuted.
