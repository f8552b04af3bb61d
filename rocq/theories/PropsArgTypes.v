(** C85: argument types and remembered results. *)

From Coq Require Import Reals Lra.
From Coq Require Import Lia ZifyBool ZifyNat.
From Verif Require Import PyBase PyFacts Compat Matrix Spherical FullLabels RadialME RadialOps Operators FullOps
  FullOpsMemo ArgTypes.
Open Scope Z_scope.

(** ** Specification *)

(** The arguments accepted as integers, and the integer each one is. *)
Inductive denotes : pyarg -> Z -> Prop :=
| D_int n : denotes (ANum (NInt n)) n
| D_true : denotes (ANum (NBool true)) 1
| D_false : denotes (ANum (NBool false)) 0.
Definition not_int (a : pyarg) : Prop := forall n, ~ denotes a n.

(** Since the tables were last cleared, the history made the call [k]. *)
Definition called_since_clear {E K} (h : list (cevent E K)) (k : K) : Prop :=
  exists h1 h2, h = h1 ++ CCall k :: h2 /\ ~ In CClear h2.
(** The history does not change the setting read by the bodies. *)
Definition one_setting {E K} (h : list (cevent E K)) : Prop := forall e, ~ In (CSet e) h.

(** The setting in force after the history. *)
Definition setting_after {E K} (e : E) (h : list (cevent E K)) : E :=
  fold_left (fun e ev => match ev with CSet e' => e' | _ => e end) h e.

(** All the arguments are integers: the call of the model on integers. *)
Inductive denotes_call : tname * targs -> xname * xargs -> Prop :=
| DC n m a x :
    match n, m with
    | TPi, NPi => True
    | TPiPi p, NPiPi l => denotes p l
    | TPiqPi, NPiqPi => True
    | _, _ => False
    end ->
    xa_anorm x = ta_anorm a -> xa_lambda_base x = ta_lambda_base a ->
    denotes (ta_nu_min a) (xa_nu_min x) -> denotes (ta_nu_max a) (xa_nu_max x) ->
    denotes (ta_v_min a) (xa_v_min x) -> denotes (ta_v_max a) (xa_v_max x) ->
    denotes (ta_L_min a) (xa_L_min x) -> denotes (ta_L_max a) (xa_L_max x) ->
    denotes_call (n, a) (m, x).

(** Equality of the numbers passed, whatever their types. *)
Definition same_number (a b : pyarg) : Prop :=
  match a, b with
  | ANum x, ANum y => num_val x = num_val y
  | AOther j, AOther k => j = k
  | _, _ => False
  end.
Definition same_targs (a b : targs) : Prop :=
  ta_anorm a = ta_anorm b /\ ta_lambda_base a = ta_lambda_base b /\
  same_number (ta_nu_min a) (ta_nu_min b) /\ same_number (ta_nu_max a) (ta_nu_max b) /\
  same_number (ta_v_min a) (ta_v_min b) /\ same_number (ta_v_max a) (ta_v_max b) /\
  same_number (ta_L_min a) (ta_L_min b) /\ same_number (ta_L_max a) (ta_L_max b).
Definition same_call (j k : tname * targs) : Prop :=
  match fst j, fst k with
  | TPi, TPi => True
  | TPiPi x, TPiPi y => same_number x y
  | TPiqPi, TPiqPi => True
  | _, _ => False
  end /\ same_targs (snd j) (snd k).

(** ** Facts *)

Lemma as_int_iff a n : as_int a = Some n <-> denotes a n.
Proof.
  split.
  - destruct a as [[k|[]|x]|k]; cbn; intros H; try discriminate; assert (E : n = n) by auto;
      injection H as <-; constructor.
  - destruct 1; reflexivity.
Qed.
Lemma as_int_none a : as_int a = None <-> not_int a.
Proof.
  split.
  - intros H n D. apply as_int_iff in D. congruence.
  - intros H. destruct (as_int a) as [n|] eqn:E; [|reflexivity]. apply as_int_iff in E. now destruct (H n).
Qed.

Lemma py_eqb_iff a b : py_eqb a b = true <-> same_number a b.
Proof.
  destruct a as [x|j], b as [y|k]; cbn [py_eqb same_number]; try (split; [discriminate|contradiction]).
  - unfold num_eqb, Reqb. destruct (Req_EM_T (num_val x) (num_val y)); split; intros; try discriminate; congruence.
  - rewrite Z.eqb_eq. reflexivity.
Qed.
Lemma same_number_refl a : same_number a a.
Proof. destruct a; cbn; reflexivity. Qed.
Lemma same_number_sym a b : same_number a b -> same_number b a.
Proof. destruct a, b; cbn; auto. Qed.
Lemma same_number_trans a b c : same_number a b -> same_number b c -> same_number a c.
Proof. destruct a, b, c; cbn; try contradiction; congruence. Qed.
Lemma denotes_val a n : denotes a n -> exists x, a = ANum x /\ num_val x = IZR n.
Proof. destruct 1; eexists; split; reflexivity. Qed.
Lemma same_denotes a b m n : denotes a m -> denotes b n -> same_number a b -> m = n.
Proof.
  intros A B H. destruct (denotes_val a m A) as (x & -> & X), (denotes_val b n B) as (y & -> & Y).
  cbn in H. apply eq_IZR. congruence.
Qed.

Lemma Reqb_iff x y : Reqb x y = true <-> x = y.
Proof. unfold Reqb. destruct (Req_EM_T x y); split; intros; try discriminate; congruence. Qed.

Lemma t_keq_iff j k : t_keq j k = true <-> same_call j k.
Proof.
  unfold t_keq, same_call, targs_eqb, same_targs. rewrite !andb_true_iff, !Reqb_iff, !py_eqb_iff.
  assert (H : tname_eqb (fst j) (fst k) = true <->
    match fst j, fst k with
    | TPi, TPi => True | TPiPi x, TPiPi y => same_number x y | TPiqPi, TPiqPi => True | _, _ => False end).
  { destruct (fst j), (fst k); cbn; try (split; intros; [exact I|reflexivity]);
      try (split; [discriminate|contradiction]). apply py_eqb_iff. }
  rewrite H. tauto.
Qed.

Section CacheFacts.
  Context {E K V : Type}.
  Variable keq : K -> K -> bool.
  Variable body : E -> K -> res V.
  Hypothesis keq_refl : forall k, keq k k = true.
  Hypothesis keq_sym : forall j k, keq j k = true -> keq k j = true.
  Hypothesis keq_trans : forall i j k, keq i j = true -> keq j k = true -> keq i k = true.
  (** Equal arguments that both succeed give the same result. *)
  Hypothesis agree : forall e j k x y, keq j k = true -> body e j = Ok x -> body e k = Ok y -> x = y.

  Notation after := (c_after keq body).
  Notation answer := (c_answer keq body).

  Lemma get_ext j k t : keq j k = true -> c_get keq j t = c_get (V := V) keq k t.
  Proof.
    intros H. induction t as [|[k' m] t IH]; [reflexivity|]. cbn.
    destruct (keq j k') eqn:A, (keq k k') eqn:B; try reflexivity; try exact IH; exfalso.
    - rewrite (keq_trans _ _ _ (keq_sym _ _ H) A) in B. discriminate.
    - rewrite (keq_trans _ _ _ H B) in A. discriminate.
  Qed.

  Lemma after_snoc e h ev : after e (h ++ [ev]) = c_step keq body (after e h) ev.
  Proof. unfold c_after. now rewrite fold_left_app. Qed.

  Lemma env_one e h : one_setting h -> c_env (after e h) = e.
  Proof.
    induction h as [|ev h IH] using rev_ind; [reflexivity|]. intros H. rewrite after_snoc.
    assert (Hh : one_setting h) by (intros e' H'; apply (H e'); apply in_or_app; now left).
    specialize (IH Hh). destruct ev as [k| |e']; cbn [c_step].
    - unfold c_call. destruct (c_get keq k (c_table (after e h))); [exact IH|].
      destruct (body (c_env (after e h)) k); exact IH.
    - exact IH.
    - exfalso. apply (H e'). apply in_or_app. right. now left.
  Qed.

  (** What the table holds. *)
  Lemma table_sound e h k m : one_setting h -> c_get keq k (c_table (after e h)) = Some m ->
    exists k', called_since_clear h k' /\ keq k k' = true /\ body e k' = Ok m.
  Proof.
    revert k m. induction h as [|ev h IH] using rev_ind; [discriminate|]. intros k m H.
    assert (Hh : one_setting h) by (intros e' H'; apply (H e'); apply in_or_app; now left).
    assert (Ext : forall k', called_since_clear h k' -> ev <> CClear -> called_since_clear (h ++ [ev]) k').
    { intros k' (h1 & h2 & E1 & N) Hc. exists h1, (h2 ++ [ev]). rewrite E1, <- app_assoc. split; [reflexivity|].
      intros F. apply in_app_or in F. destruct F as [F|[F|[]]]; [now apply N|now apply Hc]. }
    rewrite after_snoc. destruct ev as [j| |e'].
    - cbn [c_step]. unfold c_call. destruct (c_get keq j (c_table (after e h))) as [m'|] eqn:G.
      + cbn [snd]. intros G'. destruct (IH k m Hh G') as (k' & A & B & C). exists k'. split; [|auto].
        apply Ext; [exact A|discriminate].
      + rewrite (env_one e h Hh). destruct (body e j) as [m'|x] eqn:Bd; cbn [snd c_table].
        * cbn [c_get]. destruct (keq k j) eqn:Q.
          -- intros G'. assert (m' = m) by congruence. subst m'. exists j. split; [|auto].
             exists h, []. split; [reflexivity|now intros []].
          -- intros G'. destruct (IH k m Hh G') as (k' & A & B & C). exists k'. split; [|auto].
             apply Ext; [exact A|discriminate].
        * intros G'. destruct (IH k m Hh G') as (k' & A & B & C). exists k'. split; [|auto].
          apply Ext; [exact A|discriminate].
    - discriminate.
    - exfalso. apply (H e'). apply in_or_app. right. now left.
  Qed.

  Lemma called_snoc (h : list (cevent E K)) ev k :
    called_since_clear (h ++ [ev]) k <-> ev = CCall k \/ (called_since_clear h k /\ ev <> CClear).
  Proof.
    split.
    - intros (h1 & h2 & E1 & N). destruct h2 as [|x0 h20] using rev_ind; [|clear IHh20].
      + change (h ++ [ev] = h1 ++ [CCall k]) in E1. apply app_inj_tail in E1. left. apply E1.
      + right. replace (h1 ++ CCall k :: h20 ++ [x0]) with ((h1 ++ CCall k :: h20) ++ [x0]) in E1
          by now rewrite <- app_assoc.
        apply app_inj_tail in E1. destruct E1 as [-> ->]. split.
        * exists h1, h20. split; [reflexivity|]. intros F. apply N. apply in_or_app. now left.
        * intros ->. apply N. apply in_or_app. right. now left.
    - intros [->|[(h1 & h2 & -> & N) C]].
      + exists h, []. split; [reflexivity|now intros []].
      + exists h1, (h2 ++ [ev]). rewrite <- app_assoc. split; [reflexivity|].
        intros F. apply in_app_or in F. destruct F as [F|[F|[]]]; [now apply N|now apply C].
  Qed.

  Lemma table_complete e h k k' m : one_setting h -> called_since_clear h k' -> keq k k' = true ->
    body e k' = Ok m -> c_get keq k (c_table (after e h)) = Some m.
  Proof.
    revert k k' m. induction h as [|ev h IH] using rev_ind.
    { intros k k' m _ (h1 & h2 & E1 & _). now destruct h1. }
    intros k k' m H C Q B. apply called_snoc in C.
    assert (Hh : one_setting h) by (intros e' H'; apply (H e'); apply in_or_app; now left).
    rewrite after_snoc. destruct C as [->|[C N]].
    - cbn [c_step]. unfold c_call. destruct (c_get keq k' (c_table (after e h))) as [m'|] eqn:G.
      + cbn [snd]. rewrite (get_ext k k' _ Q), G. f_equal.
        destruct (table_sound e h k' m' Hh G) as (j & _ & Qj & Bj).
        exact (agree e j k' m' m (keq_sym _ _ Qj) Bj B).
      + rewrite (env_one e h Hh), B. cbn [snd c_table c_get]. now rewrite Q.
    - specialize (IH k k' m Hh C Q B). destruct ev as [j| |e']; [|congruence|].
      + cbn [c_step]. unfold c_call. destruct (c_get keq j (c_table (after e h))) as [m'|] eqn:G; [exact IH|].
        rewrite (env_one e h Hh). destruct (body e j) as [m'|x]; cbn [snd c_table]; [|exact IH].
        cbn [c_get]. destruct (keq k j) eqn:Qj; [|exact IH].
        rewrite (get_ext k j _ Qj), G in IH. discriminate.
      + exfalso. apply (H e'). apply in_or_app. right. now left.
  Qed.

  (** A call whose body would succeed is answered by what the body returns. *)
  Lemma answer_ok e h k m : one_setting h -> body e k = Ok m -> answer e h k = Ok m.
  Proof.
    intros H B. unfold c_answer, c_call. destruct (c_get keq k (c_table (after e h))) as [m'|] eqn:G.
    - cbn. f_equal. destruct (table_sound e h k m' H G) as (k' & _ & Q & B').
      exact (agree e k' k m' m (keq_sym _ _ Q) B' B).
    - rewrite (env_one e h H), B. reflexivity.
  Qed.

  (** A call whose body would raise raises the same exception, unless equal
      arguments succeeded since the tables were cleared. *)
  Lemma answer_raise e h k x : one_setting h -> body e k = Raise x ->
    (exists k' m, called_since_clear h k' /\ keq k k' = true /\ body e k' = Ok m /\ answer e h k = Ok m) \/
    ((forall k' m, called_since_clear h k' -> keq k k' = true -> body e k' <> Ok m) /\ answer e h k = Raise x).
  Proof.
    intros H B. unfold c_answer, c_call. destruct (c_get keq k (c_table (after e h))) as [m|] eqn:G.
    - left. destruct (table_sound e h k m H G) as (k' & C & Q & B'). exists k', m. auto.
    - right. split.
      + intros k' m C Q B'. rewrite (table_complete e h k k' m H C Q B') in G. discriminate.
      + now rewrite (env_one e h H), B.
  Qed.

  Lemma answer_iff e h k m : one_setting h ->
    (answer e h k = Ok m <->
     body e k = Ok m \/ exists k', called_since_clear h k' /\ keq k k' = true /\ body e k' = Ok m).
  Proof.
    intros H. split.
    - destruct (body e k) as [m'|x] eqn:B.
      + rewrite (answer_ok e h k m' H B). intros. left. congruence.
      + destruct (answer_raise e h k x H B) as [(k' & m' & C & Q & B' & A)|[_ A]]; rewrite A; intros F.
        * right. exists k'. assert (m' = m) by congruence. subst. auto.
        * discriminate.
    - intros [B|(k' & C & Q & B)]; [now apply answer_ok|].
      unfold c_answer, c_call. now rewrite (table_complete e h k k' m H C Q B).
  Qed.
  (** Histories that also change the setting. *)
  Lemma env_after e h : c_env (after e h) = setting_after e h.
  Proof.
    induction h as [|ev h IH] using rev_ind; [reflexivity|]. rewrite after_snoc. unfold setting_after in *.
    rewrite fold_left_app. cbn [fold_left]. destruct ev as [k| |e']; cbn [c_step]; [|exact IH|reflexivity].
    unfold c_call. destruct (c_get keq k (c_table (after e h))); [exact IH|].
    destruct (body (c_env (after e h)) k); exact IH.
  Qed.

  Lemma table_iff e h k m : c_get keq k (c_table (after e h)) = Some m <->
    exists h1 k' h2, h = h1 ++ CCall k' :: h2 /\ ~ In CClear h2 /\ keq k k' = true /\ answer e h1 k' = Ok m.
  Proof.
    revert k m. induction h as [|ev h IH] using rev_ind; intros k m.
    { split; [discriminate|]. intros (h1 & k' & h2 & E1 & _). now destruct h1. }
    rewrite after_snoc. split.
    - assert (Ext : c_get keq k (c_table (after e h)) = Some m -> ev <> CClear ->
        exists h1 k' h2, h ++ [ev] = h1 ++ CCall k' :: h2 /\ ~ In CClear h2 /\ keq k k' = true /\ answer e h1 k' = Ok m).
      { intros G N. apply IH in G. destruct G as (h1 & k' & h2 & E1 & N2 & Q & A). exists h1, k', (h2 ++ [ev]).
        rewrite E1, <- app_assoc. repeat split; auto. intros F. apply in_app_or in F. destruct F as [F|[F|[]]]; auto. }
      destruct ev as [j| |e']; cbn [c_step]; [|discriminate|intros G; apply Ext; [exact G|discriminate]].
      unfold c_call. destruct (c_get keq j (c_table (after e h))) as [m'|] eqn:G.
      + intros G'. apply Ext; [exact G'|discriminate].
      + destruct (body (c_env (after e h)) j) as [m'|x] eqn:B; cbn [snd c_table]; [|intros G'; apply Ext; [exact G'|discriminate]].
        cbn [c_get]. destruct (keq k j) eqn:Q; [|intros G'; apply Ext; [exact G'|discriminate]].
        intros G'. assert (m' = m) by congruence. subst m'. exists h, j, []. repeat split; auto.
        unfold c_answer, c_call. now rewrite G, B.
    - intros (h1 & k' & h2 & E1 & N & Q & A). destruct h2 as [|x h2] using rev_ind; [|clear IHh2].
      + change (h ++ [ev] = h1 ++ [CCall k']) in E1. apply app_inj_tail in E1. destruct E1 as [<- ->].
        cbn [c_step]. unfold c_answer, c_call in A |- *.
        destruct (c_get keq k' (c_table (after e h))) as [m'|] eqn:G.
        * cbn [fst snd] in *. rewrite (get_ext k k' _ Q), G. congruence.
        * destruct (body (c_env (after e h)) k') as [m'|x]; cbn [fst snd c_table] in *; [|discriminate].
          cbn [c_get]. rewrite Q. congruence.
      + replace (h1 ++ CCall k' :: h2 ++ [x]) with ((h1 ++ CCall k' :: h2) ++ [x]) in E1 by now rewrite <- app_assoc.
        apply app_inj_tail in E1. destruct E1 as [-> ->].
        assert (G : c_get keq k (c_table (after e (h1 ++ CCall k' :: h2))) = Some m).
        { apply IH. exists h1, k', h2. repeat split; auto. intros F. apply N. apply in_or_app. now left. }
        destruct x as [j| |e']; cbn [c_step].
        * unfold c_call. destruct (c_get keq j (c_table (after e (h1 ++ CCall k' :: h2)))) as [m'|] eqn:Gj; [exact G|].
          destruct (body (c_env (after e (h1 ++ CCall k' :: h2))) j) as [m'|y]; cbn [snd c_table]; [|exact G].
          cbn [c_get]. destruct (keq k j) eqn:Qj; [|exact G]. rewrite (get_ext k j _ Qj), Gj in G. discriminate.
        * exfalso. apply N. apply in_or_app. right. now left.
        * exact G.
  Qed.

  Lemma answer_settings e h k :
    (forall h1 k' h2 m, h = h1 ++ CCall k' :: h2 -> ~ In CClear h2 -> keq k k' = true -> answer e h1 k' = Ok m ->
       answer e h k = Ok m) /\
    ((forall h1 k' h2 m, h = h1 ++ CCall k' :: h2 -> ~ In CClear h2 -> keq k k' = true -> answer e h1 k' <> Ok m) ->
       answer e h k = body (setting_after e h) k).
  Proof.
    split.
    - intros h1 k' h2 m E1 N Q A. unfold c_answer at 1. unfold c_call.
      assert (G : c_get keq k (c_table (after e h)) = Some m) by (apply table_iff; exists h1, k', h2; auto).
      now rewrite G.
    - intros H. unfold c_answer, c_call. destruct (c_get keq k (c_table (after e h))) as [m|] eqn:G.
      + exfalso. apply table_iff in G. destruct G as (h1 & k' & h2 & E1 & N & Q & A). exact (H h1 k' h2 m E1 N Q A).
      + rewrite env_after. now destruct (body (setting_after e h) k).
  Qed.
End CacheFacts.

(** ** The validators *)

(** Integers and booleans are treated as the integers they are; every other
    argument is refused with TypeError, integral floats included, in the order
    in which the arguments are tested. *)
Theorem C85_validators :
  (forall a n, denotes a n ->
     t_require_int a = Ok n /\
     t_require_nonnegint a = (if n <? 0 then Raise ValueError else Ok n) /\
     t_require_posint a = (if n <=? 0 then Raise ValueError else Ok n) /\
     t_is_even a = Ok (Z.even n) /\ t_is_odd a = Ok (Z.odd n)) /\
  (forall a, not_int a ->
     t_require_int a = Raise TypeError /\ t_require_nonnegint a = Raise TypeError /\
     t_require_posint a = Raise TypeError /\ t_is_even a = Raise TypeError /\ t_is_odd a = Raise TypeError) /\
  (forall a b m n, denotes a m -> denotes b n ->
     t_require_nonnegint_range a b = (if (0 <=? m) && (m <=? n) then Ok (m, n) else Raise ValueError) /\
     t_iquo a b = (if (0 <=? m) && (0 <? n) then Ok (m / n) else Raise ValueError) /\
     t_irem a b = (if (0 <=? m) && (0 <? n) then Ok (m mod n) else Raise ValueError)) /\
  (forall a b, not_int a ->
     t_require_nonnegint_range a b = Raise TypeError /\ t_iquo a b = Raise TypeError /\
     t_irem a b = Raise TypeError) /\
  (forall a b m, denotes a m -> not_int b ->
     let e := if m <? 0 then ValueError else TypeError in
     t_require_nonnegint_range a b = Raise e /\ t_iquo a b = Raise e /\ t_irem a b = Raise e).
Proof.
  assert (I : forall a n, denotes a n -> t_require_int a = Ok n)
    by (intros a n D; unfold t_require_int; apply as_int_iff in D; now rewrite D).
  assert (N : forall a, not_int a -> t_require_int a = Raise TypeError)
    by (intros a D; unfold t_require_int; apply as_int_none in D; now rewrite D).
  assert (J : forall a n, denotes a n -> t_require_nonnegint a = (if n <? 0 then Raise ValueError else Ok n)).
  { intros a n D. unfold t_require_nonnegint. rewrite (I a n D). cbn. now destruct (n <? 0). }
  assert (P : forall a n, denotes a n -> t_require_posint a = (if n <=? 0 then Raise ValueError else Ok n)).
  { intros a n D. unfold t_require_posint. rewrite (J a n D). unfold raise_if.
    destruct (n <? 0) eqn:A; cbn; [now replace (n <=? 0) with true by lia|].
    destruct (n =? 0) eqn:B; cbn; [now replace (n <=? 0) with true by lia|now replace (n <=? 0) with false by lia]. }
  split; [|split; [|split; [|split]]].
  - intros a n D. unfold t_is_even, t_is_odd. rewrite (I a n D), (J a n D), (P a n D). cbn [bind].
    rewrite Zeven_mod, Zodd_mod. repeat split; f_equal;
      rewrite Zmod_odd; destruct (Z.odd n); reflexivity.
  - intros a D. unfold t_require_posint, t_require_nonnegint, t_is_even, t_is_odd. rewrite (N a D). auto.
  - intros a b m n A B. unfold t_require_nonnegint_range, t_iquo, t_irem.
    rewrite (J a m A), (J b n B), (P b n B). unfold raise_if.
    destruct (m <? 0) eqn:E1; cbn [bind]; [replace (0 <=? m) with false by lia; auto|].
    replace (0 <=? m) with true by lia. cbn [andb].
    split.
    + destruct (n <? 0) eqn:E2; cbn [bind]; [now replace (m <=? n) with false by lia|].
      destruct (n <? m) eqn:E3; cbn [bind]; [now replace (m <=? n) with false by lia|
                                             now replace (m <=? n) with true by lia].
    + destruct (n <=? 0) eqn:E2; cbn [bind]; [now replace (0 <? n) with false by lia|
                                              now replace (0 <? n) with true by lia].
  - intros a b D. unfold t_require_nonnegint_range, t_iquo, t_irem, t_require_nonnegint. rewrite (N a D). auto.
  - intros a b m A B. unfold t_require_nonnegint_range, t_iquo, t_irem, t_require_posint.
    rewrite (J a m A). cbn zeta. destruct (m <? 0); cbn [bind]; [auto|].
    unfold t_require_nonnegint. rewrite (N b B). auto.
Qed.

(** The validators agree with those of Compat.v, which have integers only. *)
Theorem C85_integers : forall a b m n, denotes a m -> denotes b n ->
  (let* _ := t_require_nonnegint a in Ok tt) = require_nonnegint m /\
  (let* _ := t_require_nonnegint_range a b in Ok tt) = require_nonnegint_range m n /\
  (let* _ := t_require_posint a in Ok tt) = require_posint m /\
  t_is_even a = Ok (is_even m) /\ t_is_odd a = Ok (is_odd m) /\
  t_iquo a b = iquo m n /\ t_irem a b = irem m n.
Proof.
  intros a b m n A B. apply as_int_iff in A, B.
  unfold t_require_nonnegint_range, t_iquo, t_irem, t_require_posint, t_is_even, t_is_odd, t_require_nonnegint,
    t_require_int, require_nonnegint_range, iquo, irem, require_posint, require_nonnegint, is_even, is_odd.
  rewrite A, B. unfold raise_if. cbn [bind].
  destruct (m <? 0) eqn:E1, (n <? 0) eqn:E2, (n <? m) eqn:E3, (m =? 0) eqn:E4, (n =? 0) eqn:E5; cbn [bind];
    rewrite ?E1, ?E2, ?E3, ?E4, ?E5; repeat split; reflexivity.
Qed.

(** ** The momentum matrices *)

Lemma ta_check_ints a x m n : denotes_call (n, a) (m, x) ->
  ta_check a = (let* _ := xa_check x in Ok x).
Proof.
  inversion 1 as [n' m' a' x' Hn Ha Hb H1 H2 H3 H4 H5 H6]; subst.
  apply as_int_iff in H1, H2, H3, H4, H5, H6.
  unfold ta_check, xa_check, t_require_nonnegint_range, t_require_nonnegint, t_require_int,
    require_nonnegint_range, require_nonnegint, raise_if.
  rewrite H1, H2, H3, H4, H5, H6. cbn [bind].
  repeat match goal with |- context [if ?b then _ else _] => destruct b; cbn [bind]; try reflexivity end.
  cbn [fst snd]. rewrite <- Ha, <- Hb. destruct x; reflexivity.
Qed.

Section Momentum.
  Variable RP : list rsym -> R -> R -> Z -> Z -> Z -> Z -> res (mat R).
  Variable CG : Z -> Z -> Z -> Z -> Z -> Z -> Z -> Z -> Z -> res R.
  Notation body := (t_body RP CG).
  Notation answer := (c_answer t_keq (t_body RP CG)).

  Lemma xcompute_check lam m x e : xa_check x = Raise e -> exists e', xcompute RP CG lam m x = Raise e'.
  Proof.
    intros H. destruct m; cbn [xcompute]; unfold RepXspace_Pi, RepXspace_PiPi, RepXspace_PiqPi.
    - rewrite H. cbn. eauto.
    - destruct (require_nonnegint L); cbn; [|eauto]. rewrite H. cbn. eauto.
    - rewrite H. cbn. eauto.
  Qed.

  (** In a new process a call whose arguments are integers computes the matrix
      of those integers. *)
  Lemma body_ints lam k i : denotes_call k i -> body lam k = xcompute RP CG lam (fst i) (snd i).
  Proof.
    intros D. pose proof D as D'. destruct k as [n a], i as [m x]. cbn [fst snd].
    pose proof (ta_check_ints a x m n D) as C.
    inversion D as [n' m' a' x' Hn Ha Hb H1 H2 H3 H4 H5 H6]; subst.
    unfold t_body. cbn [fst snd].
    destruct n as [|p|], m as [|l|]; try contradiction.
    - rewrite C. destruct (xa_check x) as [[]|e] eqn:X; cbn [bind]; [reflexivity|].
      cbn [xcompute]. unfold RepXspace_Pi. now rewrite X.
    - rewrite C. unfold t_require_nonnegint, t_require_int. apply as_int_iff in Hn. rewrite Hn. cbn [bind].
      unfold raise_if. destruct (l <? 0) eqn:El; cbn [bind].
      + cbn [xcompute]. unfold RepXspace_PiPi, require_nonnegint, raise_if. now rewrite El.
      + destruct (xa_check x) as [[]|e] eqn:X; cbn [bind]; [reflexivity|].
        cbn [xcompute]. unfold RepXspace_PiPi, require_nonnegint, raise_if. rewrite El, X. reflexivity.
    - rewrite C. destruct (xa_check x) as [[]|e] eqn:X; cbn [bind]; [reflexivity|].
      cbn [xcompute]. unfold RepXspace_PiqPi. now rewrite X.
  Qed.

  Lemma range_ok lo hi p : t_require_nonnegint_range lo hi = Ok p -> denotes lo (fst p) /\ denotes hi (snd p).
  Proof.
    unfold t_require_nonnegint_range, t_require_nonnegint, t_require_int, raise_if.
    destruct (as_int lo) as [m|] eqn:A; [|discriminate]. cbn [bind].
    destruct (m <? 0); [discriminate|]. cbn [bind].
    destruct (as_int hi) as [n|] eqn:B; [|discriminate]. cbn [bind].
    destruct (n <? 0); [discriminate|]. cbn [bind]. destruct (n <? m); [discriminate|]. cbn [bind].
    intros H. assert (p = (m, n)) by congruence. subst. cbn. now split; apply as_int_iff.
  Qed.

  Lemma body_ok lam k M : body lam k = Ok M -> exists i, denotes_call k i /\ xcompute RP CG lam (fst i) (snd i) = Ok M.
  Proof.
    intros H. assert (D : exists i, denotes_call k i).
    { destruct k as [n a]. unfold t_body in H. cbn [fst snd] in H.
      assert (A : forall x, ta_check a = Ok x -> forall m,
        match n, m with
        | TPi, NPi => True | TPiPi p, NPiPi l => denotes p l | TPiqPi, NPiqPi => True | _, _ => False end ->
        denotes_call (n, a) (m, x)).
      { intros x C m Hm. unfold ta_check in C.
        destruct (t_require_nonnegint_range (ta_nu_min a) (ta_nu_max a)) as [p|] eqn:E1; [|discriminate].
        destruct (t_require_nonnegint_range (ta_v_min a) (ta_v_max a)) as [q|] eqn:E2; [|discriminate].
        destruct (t_require_nonnegint_range (ta_L_min a) (ta_L_max a)) as [r|] eqn:E3; [|discriminate].
        cbn [bind] in C. apply range_ok in E1, E2, E3.
        assert (x = mkXA (ta_anorm a) (ta_lambda_base a) (fst p) (snd p) (fst q) (snd q) (fst r) (snd r))
          by congruence. subst x. constructor; cbn; tauto. }
      destruct n as [|p|].
      - destruct (ta_check a) as [x|] eqn:C; [|discriminate]. exists (NPi, x). now apply A.
      - unfold t_require_nonnegint, t_require_int in H. destruct (as_int p) as [l|] eqn:P; [|discriminate].
        destruct (ta_check a) as [x|] eqn:C; [|cbn in H; destruct (raise_if (l <? 0) ValueError); discriminate].
        exists (NPiPi l, x). apply A; [reflexivity|]. now apply as_int_iff.
      - destruct (ta_check a) as [x|] eqn:C; [|discriminate]. exists (NPiqPi, x). now apply A. }
    destruct D as [i D]. exists i. split; [exact D|]. now rewrite <- (body_ints lam k i D).
  Qed.

  Lemma t_refl k : t_keq k k = true.
  Proof.
    apply t_keq_iff. split; [|repeat split; auto using same_number_refl].
    destruct (fst k); auto using same_number_refl.
  Qed.
  Lemma t_sym j k : t_keq j k = true -> t_keq k j = true.
  Proof.
    rewrite !t_keq_iff. intros [A B]. split.
    - destruct (fst j), (fst k); auto using same_number_sym.
    - unfold same_targs in *. intuition auto using same_number_sym.
  Qed.
  Lemma t_trans i j k : t_keq i j = true -> t_keq j k = true -> t_keq i k = true.
  Proof.
    rewrite !t_keq_iff. intros [A B] [C D]. split.
    - destruct (fst i), (fst j), (fst k); try contradiction; eauto using same_number_trans.
    - unfold same_targs in *. intuition (try congruence; eauto using same_number_trans).
  Qed.
  Lemma same_ints j k i i' : same_call j k -> denotes_call j i -> denotes_call k i' -> i = i'.
  Proof.
    intros [S1 S2] D D'. destruct j as [n a], k as [n' a'], i as [m x], i' as [m' x']. cbn [fst snd] in *.
    inversion D as [? ? ? ? Hn Ha Hb H1 H2 H3 H4 H5 H6]; subst.
    inversion D' as [? ? ? ? Gn Ga Gb G1 G2 G3 G4 G5 G6]; subst.
    destruct S2 as (T1 & T2 & T3 & T4 & T5 & T6 & T7 & T8).
    assert (Ex : x = x').
    { destruct x, x'. cbn in *.
      f_equal; try congruence; eauto using same_denotes. }
    subst x'. f_equal. destruct n, n', m, m'; try contradiction; try reflexivity. f_equal.
    exact (same_denotes _ _ _ _ Hn Gn S1).
  Qed.
  Lemma t_agree lam j k X Y : t_keq j k = true -> body lam j = Ok X -> body lam k = Ok Y -> X = Y.
  Proof.
    intros S A B. apply t_keq_iff in S. destruct (body_ok lam j X A) as (i & D & C).
    destruct (body_ok lam k Y B) as (i' & D' & C'). pose proof (same_ints j k i i' S D D'). subst i'. congruence.
  Qed.

  (** A call whose arguments are integers (or booleans) is answered, whatever
      calls were made before with arguments of whatever types, by the matrix or
      the exception of those integers. *)
  Theorem C85_momentum_integers : forall lam h k i, one_setting h -> denotes_call k i ->
    answer lam h k = xcompute RP CG lam (fst i) (snd i).
  Proof.
    intros lam h k i H D. rewrite <- (body_ints lam k i D). destruct (body lam k) as [M|e] eqn:B.
    - exact (answer_ok t_keq body t_sym t_agree lam h k M H B).
    - destruct (answer_raise t_keq body t_sym t_trans t_agree lam h k e H B)
        as [(k' & M & _ & Q & B' & _)|[_ A]]; [|exact A]. exfalso.
      destruct (body_ok lam k' M B') as (i' & D' & C). apply t_keq_iff in Q.
      pose proof (same_ints k k' i i' Q D D'). subst i'. rewrite (body_ints lam k i D), C in B. discriminate.
  Qed.

  (** A call with an argument that is not an integer returns a matrix exactly
      when, since the tables were cleared, a call was made with the same numbers
      passed as integers and returned that matrix; otherwise it raises. *)
  Theorem C85_momentum_others : forall lam h k, one_setting h -> (forall i, ~ denotes_call k i) ->
    (forall M, answer lam h k = Ok M <->
       exists k' i, called_since_clear h k' /\ same_call k k' /\ denotes_call k' i /\
                    xcompute RP CG lam (fst i) (snd i) = Ok M) /\
    (forall e, answer lam h k = Raise e -> answer lam [] k = Raise e).
  Proof.
    intros lam h k H N. split.
    - intros M. rewrite (answer_iff t_keq body t_sym t_trans t_agree lam h k M H). split.
      + intros [B|(k' & C & Q & B)].
        * destruct (body_ok lam k M B) as (i & D & _). now destruct (N i).
        * destruct (body_ok lam k' M B) as (i & D & X). apply t_keq_iff in Q. exists k', i. auto.
      + intros (k' & i & C & S & D & X). right. exists k'. rewrite t_keq_iff, (body_ints lam k' i D). auto.
    - intros e A. unfold c_answer, c_call in A |- *. cbn.
      destruct (c_get t_keq k (c_table (c_after t_keq body lam h))); [discriminate|].
      rewrite (env_one t_keq body lam h H) in A. destruct (body lam k); cbn in A |- *; [discriminate|exact A].
  Qed.

  (** In particular such a call raises in a new process and after
      [cache_clear]; one with an argument that is not a number always raises. *)
  Theorem C85_momentum_raises : forall lam h k, one_setting h -> (forall i, ~ denotes_call k i) ->
    (h = [] \/ (exists h', h = h' ++ [CClear]) \/
     (exists j, fst k = TPiPi (AOther j) \/ ta_nu_min (snd k) = AOther j \/ ta_nu_max (snd k) = AOther j \/
        ta_v_min (snd k) = AOther j \/ ta_v_max (snd k) = AOther j \/
        ta_L_min (snd k) = AOther j \/ ta_L_max (snd k) = AOther j)) ->
    exists e, answer lam h k = Raise e.
  Proof.
    intros lam h k H N C. destruct (answer lam h k) as [M|e] eqn:A; [|eauto]. exfalso.
    destruct (C85_momentum_others lam h k H N) as [B _]. apply B in A.
    destruct A as (k' & i & (h1 & h2 & E & Nc) & S & D & _). destruct C as [->|[(h' & ->)|(j & C)]].
    - now destruct h1.
    - destruct h2 as [|x h2] using rev_ind.
      + apply app_inj_tail in E. destruct E as [_ E]. discriminate.
      + clear IHh2. replace (h1 ++ CCall k' :: h2 ++ [x]) with ((h1 ++ CCall k' :: h2) ++ [x]) in E
          by now rewrite <- app_assoc.
        apply app_inj_tail in E. destruct E as [_ <-]. apply Nc. apply in_or_app. right. now left.
    - assert (F : forall a b n, denotes b n -> same_number a b -> a <> AOther j).
      { intros a b n Db Sab ->. destruct Db; exact Sab. }
      destruct k as [n a], k' as [n' a'], i as [m x]. destruct S as [S1 S2].
      inversion D as [? ? ? ? Hn Ha Hb H1 H2 H3 H4 H5 H6]; subst.
      cbn [fst snd] in *. destruct S2 as (T1 & T2 & T3 & T4 & T5 & T6 & T7 & T8).
      destruct C as [C|[C|[C|[C|[C|[C|C]]]]]];
        [|exact (F _ _ _ H1 T3 C)|exact (F _ _ _ H2 T4 C)|exact (F _ _ _ H3 T5 C)|exact (F _ _ _ H4 T6 C)
         |exact (F _ _ _ H5 T7 C)|exact (F _ _ _ H6 T8 C)].
      subst n. destruct n' as [|p|]; try contradiction. destruct m as [|l|]; try contradiction.
      exact (F _ _ _ Hn S1 eq_refl).
  Qed.

  (** With changes of the lambda function: the matrix returned since the tables
      were cleared for the same numbers, whatever the function and the types of
      the arguments then; if there is none, what a new process with the function
      now in force would answer. *)
  Theorem C85_momentum_settings : forall lam h k,
    (forall h1 k' h2 M, h = h1 ++ CCall k' :: h2 -> ~ In CClear h2 -> same_call k k' -> answer lam h1 k' = Ok M ->
       answer lam h k = Ok M) /\
    ((forall h1 k' h2 M, h = h1 ++ CCall k' :: h2 -> ~ In CClear h2 -> same_call k k' -> answer lam h1 k' <> Ok M) ->
       answer lam h k = answer (setting_after lam h) [] k).
  Proof.
    intros lam h k. destruct (answer_settings t_keq body t_sym t_trans lam h k) as [A B]. split.
    - intros h1 k' h2 M E1 N S. rewrite <- t_keq_iff in S. exact (A h1 k' h2 M E1 N S).
    - intros H. rewrite B.
      + unfold c_answer, c_call. cbn [c_after fold_left c_table c_get c_env]. now destruct (body (setting_after lam h) k).
      + intros h1 k' h2 M E1 N S. rewrite t_keq_iff in S. exact (H h1 k' h2 M E1 N S).
  Qed.

  (** Whether ranges given as floats are accepted is decided by the calls made
      before: refuted that a call is answered the same after every history. *)
  Theorem C85_momentum_history_refuted :
    exists lam k h, one_setting h /\ answer lam [] k = Raise TypeError /\
      exists M, answer lam h k = Ok M /\ nrows M = 1.
  Proof.
    pose (args := fun z : pyarg => mkTA 1 (5 / 2) z z z z z z).
    exists (fun _ => Ok 0), (TPi, args (ANum (NFloat 0))), [CCall (TPi, args (ANum (NInt 0)))].
    split; [intros e [F|[]]; discriminate|]. split; [reflexivity|].
    exists (zeros (1 * 1)). split; [|reflexivity].
    apply (C85_momentum_others (fun _ => Ok 0)).
    - intros e [F|[]]; discriminate.
    - intros i D. inversion D. match goal with H : denotes _ _ |- _ => inversion H end.
    - exists (TPi, args (ANum (NInt 0))), (NPi, mkXA 1 (5 / 2) 0 0 0 0 0 0). split; [|split; [|split]].
      + exists [], []. split; [reflexivity|intros []].
      + split; [exact I|]. unfold args, same_targs. cbn. repeat split; reflexivity.
      + constructor; cbn; auto; constructor.
      + reflexivity.
  Qed.
End Momentum.

(** The exception of a call with an argument that is not an integer, in a new
    process: TypeError, when the integers among the arguments are not negative
    and those that bound a range are in order. *)
Definition range_plausible (lo hi : pyarg) : Prop :=
  (forall n, denotes lo n -> 0 <= n) /\ (forall n, denotes hi n -> 0 <= n) /\
  (forall m n, denotes lo m -> denotes hi n -> m <= n).

Lemma nonneg_case a : (forall n, denotes a n -> 0 <= n) ->
  (not_int a /\ t_require_nonnegint a = Raise TypeError) \/ (exists n, denotes a n /\ t_require_nonnegint a = Ok n).
Proof.
  intros H. unfold t_require_nonnegint, t_require_int, raise_if. destruct (as_int a) as [n|] eqn:A.
  - right. exists n. apply as_int_iff in A. split; [exact A|]. specialize (H n A). cbn [bind].
    now replace (n <? 0) with false by lia.
  - left. apply as_int_none in A. auto.
Qed.
Lemma range_case lo hi : range_plausible lo hi ->
  t_require_nonnegint_range lo hi = Raise TypeError \/
  exists m n, denotes lo m /\ denotes hi n /\ t_require_nonnegint_range lo hi = Ok (m, n).
Proof.
  intros (A & B & C). unfold t_require_nonnegint_range.
  destruct (nonneg_case lo A) as [[_ ->]|(m & Dm & ->)]; [now left|]. cbn [bind].
  destruct (nonneg_case hi B) as [[_ ->]|(n & Dn & ->)]; [now left|]. cbn [bind].
  right. exists m, n. specialize (C m n Dm Dn). unfold raise_if.
  replace (n <? m) with false by lia. auto.
Qed.

Theorem C85_momentum_new_process : forall RP CG lam k, (forall i, ~ denotes_call k i) ->
  range_plausible (ta_nu_min (snd k)) (ta_nu_max (snd k)) ->
  range_plausible (ta_v_min (snd k)) (ta_v_max (snd k)) ->
  range_plausible (ta_L_min (snd k)) (ta_L_max (snd k)) ->
  (forall p n, fst k = TPiPi p -> denotes p n -> 0 <= n) ->
  c_answer t_keq (t_body RP CG) lam [] k = Raise TypeError.
Proof.
  intros RP CG lam [n a] N P1 P2 P3 P4. cbn [fst snd] in *. unfold c_answer, c_call. cbn [c_after fold_left c_table c_get c_env].
  assert (B : t_body RP CG lam (n, a) = Raise TypeError).
  { assert (T : ta_check a = Raise TypeError \/ exists x, ta_check a = Ok x /\
      forall m, match n, m with
        | TPi, NPi => True | TPiPi p, NPiPi l => denotes p l | TPiqPi, NPiqPi => True | _, _ => False end ->
        denotes_call (n, a) (m, x)).
    { unfold ta_check. destruct (range_case _ _ P1) as [->|(m1 & n1 & A1 & B1 & ->)]; [now left|]. cbn [bind].
      destruct (range_case _ _ P2) as [->|(m2 & n2 & A2 & B2 & ->)]; [now left|]. cbn [bind].
      destruct (range_case _ _ P3) as [->|(m3 & n3 & A3 & B3 & ->)]; [now left|]. cbn [bind].
      right. eexists. split; [reflexivity|]. intros m Hm. constructor; cbn; auto. }
    unfold t_body. cbn [fst snd]. destruct n as [|p|].
    - destruct T as [->|(x & -> & D)]; [reflexivity|]. exfalso. apply (N (NPi, x)). now apply D.
    - destruct (nonneg_case p (fun n => P4 p n eq_refl)) as [[_ ->]|(l & Dl & ->)]; [reflexivity|]. cbn [bind].
      destruct T as [->|(x & -> & D)]; [reflexivity|]. exfalso. apply (N (NPiPi l, x)). now apply D.
    - destruct T as [->|(x & -> & D)]; [reflexivity|]. exfalso. apply (N (NPiqPi, x)). now apply D. }
  rewrite B. reflexivity.
Qed.

(** ** The matrices of spherical harmonics *)

Definition same_yargs (a b : yargs) : Prop :=
  ya_v a = ya_v b /\ ya_al a = ya_al b /\ ya_L a = ya_L b /\
  same_number (ya_v_min a) (ya_v_min b) /\ same_number (ya_v_max a) (ya_v_max b) /\
  same_number (ya_L_min a) (ya_L_min b) /\ same_number (ya_L_max a) (ya_L_max b).
Definition yargs_ints (a : yargs) (v0 v1 L0 L1 : Z) : Prop :=
  denotes (ya_v_min a) v0 /\ denotes (ya_v_max a) v1 /\ denotes (ya_L_min a) L0 /\ denotes (ya_L_max a) L1.

Section Harmonics.
  Variable CG : Z -> Z -> Z -> Z -> Z -> Z -> Z -> Z -> Z -> res R.
  Notation ybody := (y_body CG).
  Notation yanswer := (c_answer y_keq (y_body CG) tt).

  Lemma y_keq_iff a b : y_keq a b = true <-> same_yargs a b.
  Proof. unfold y_keq, same_yargs. rewrite !andb_true_iff, !Z.eqb_eq, !py_eqb_iff. tauto. Qed.
  Lemma y_sym a b : y_keq a b = true -> y_keq b a = true.
  Proof. rewrite !y_keq_iff. unfold same_yargs. intuition auto using same_number_sym. Qed.
  Lemma y_trans a b c : y_keq a b = true -> y_keq b c = true -> y_keq a c = true.
  Proof.
    rewrite !y_keq_iff. unfold same_yargs. intuition (try congruence; eauto using same_number_trans).
  Qed.

  Lemma y_body_ints u a v0 v1 L0 L1 : yargs_ints a v0 v1 L0 L1 ->
    ybody u a = RepSO5_Y CG (ya_v a) (ya_al a) (ya_L a) v0 v1 L0 L1.
  Proof.
    intros (A & B & C & D). apply as_int_iff in A, B, C, D.
    unfold y_body, t_require_nonnegint_range, t_require_nonnegint, t_require_int. rewrite A, B, C, D. cbn [bind].
    unfold RepSO5_Y, lbsSO5r3_rngVvarL, require_nonnegint_range, require_nonnegint, raise_if.
    destruct (v0 <? 0) eqn:E1; cbn [bind]; [reflexivity|].
    destruct (v1 <? 0) eqn:E2; cbn [bind]; [reflexivity|].
    destruct (v1 <? v0) eqn:E3; cbn [bind]; [reflexivity|].
    destruct (L0 <? 0) eqn:E4; cbn [bind]; [reflexivity|].
    destruct (L1 <? 0) eqn:E5; cbn [bind]; [reflexivity|].
    destruct (L1 <? L0) eqn:E6; cbn [bind]; [reflexivity|].
    cbn [fst snd]. repeat (rewrite ?E1, ?E2, ?E3, ?E4, ?E5, ?E6; cbn [bind]). reflexivity.
  Qed.
  Lemma y_body_ok u a M : ybody u a = Ok M -> exists v0 v1 L0 L1, yargs_ints a v0 v1 L0 L1.
  Proof.
    unfold y_body. destruct (t_require_nonnegint_range (ya_v_min a) (ya_v_max a)) as [p|] eqn:A; [|discriminate].
    destruct (t_require_nonnegint (ya_L_min a)) as [l|]; [|discriminate].
    destruct (t_require_nonnegint_range (ya_L_min a) (ya_L_max a)) as [q|] eqn:B; [|discriminate].
    intros _. apply range_ok in A, B. exists (fst p), (snd p), (fst q), (snd q). unfold yargs_ints. tauto.
  Qed.
  Lemma y_same a b v0 v1 L0 L1 w0 w1 K0 K1 : same_yargs a b -> yargs_ints a v0 v1 L0 L1 -> yargs_ints b w0 w1 K0 K1 ->
    v0 = w0 /\ v1 = w1 /\ L0 = K0 /\ L1 = K1.
  Proof.
    intros (_ & _ & _ & S1 & S2 & S3 & S4) (A1 & A2 & A3 & A4) (B1 & B2 & B3 & B4).
    eauto 10 using same_denotes.
  Qed.
  Lemma y_agree u a b X Y : y_keq a b = true -> ybody u a = Ok X -> ybody u b = Ok Y -> X = Y.
  Proof.
    intros S A B. apply y_keq_iff in S. destruct (y_body_ok u a X A) as (v0 & v1 & L0 & L1 & Da).
    destruct (y_body_ok u b Y B) as (w0 & w1 & K0 & K1 & Db).
    destruct (y_same a b _ _ _ _ _ _ _ _ S Da Db) as (-> & -> & -> & ->).
    rewrite (y_body_ints u a _ _ _ _ Da) in A. rewrite (y_body_ints u b _ _ _ _ Db) in B.
    destruct S as (E1 & E2 & E3 & _). rewrite E1, E2, E3 in A. congruence.
  Qed.

  (** The matrix of a spherical harmonic: ranges given as integers are answered
      alike after every history; given otherwise, they are accepted exactly when
      the same numbers were accepted as integers since the table was cleared. *)
  Theorem C85_harmonics : forall h a, one_setting h ->
    (forall v0 v1 L0 L1, yargs_ints a v0 v1 L0 L1 ->
       yanswer h a = RepSO5_Y CG (ya_v a) (ya_al a) (ya_L a) v0 v1 L0 L1) /\
    ((forall v0 v1 L0 L1, ~ yargs_ints a v0 v1 L0 L1) -> forall M,
       yanswer h a = Ok M <->
       exists b v0 v1 L0 L1, called_since_clear h b /\ same_yargs a b /\ yargs_ints b v0 v1 L0 L1 /\
         RepSO5_Y CG (ya_v a) (ya_al a) (ya_L a) v0 v1 L0 L1 = Ok M).
  Proof.
    intros h a H. split.
    - intros v0 v1 L0 L1 D. rewrite <- (y_body_ints tt a _ _ _ _ D). destruct (ybody tt a) as [M|e] eqn:B.
      + exact (answer_ok y_keq ybody y_sym y_agree tt h a M H B).
      + destruct (answer_raise y_keq ybody y_sym y_trans y_agree tt h a e H B)
          as [(b & M & _ & Q & B' & _)|[_ A]]; [|exact A]. exfalso.
        apply y_keq_iff in Q. destruct (y_body_ok tt b M B') as (w0 & w1 & K0 & K1 & Db).
        destruct (y_same a b _ _ _ _ _ _ _ _ Q D Db) as (-> & -> & -> & ->).
        rewrite (y_body_ints tt a _ _ _ _ D) in B. rewrite (y_body_ints tt b _ _ _ _ Db) in B'.
        destruct Q as (E1 & E2 & E3 & _). rewrite E1, E2, E3 in B. congruence.
    - intros N M. rewrite (answer_iff y_keq ybody y_sym y_trans y_agree tt h a M H). split.
      + intros [B|(b & C & Q & B)].
        * destruct (y_body_ok tt a M B) as (v0 & v1 & L0 & L1 & D). now destruct (N v0 v1 L0 L1).
        * apply y_keq_iff in Q. destruct (y_body_ok tt b M B) as (w0 & w1 & K0 & K1 & Db).
          rewrite (y_body_ints tt b _ _ _ _ Db) in B. exists b, w0, w1, K0, K1.
          repeat split; try apply Q; try apply Db; try exact C. 
          destruct Q as (E1 & E2 & E3 & _). now rewrite E1, E2, E3.
      + intros (b & v0 & v1 & L0 & L1 & C & S & D & X). right. exists b.
        rewrite y_keq_iff, (y_body_ints tt b _ _ _ _ D). repeat split; try exact C; try apply S.
        destruct S as (E1 & E2 & E3 & _). now rewrite <- E1, <- E2, <- E3.
  Qed.
End Harmonics.

(** ** The radial matrices *)

Definition num_denotes (x : pynum) (n : Z) : Prop := denotes (ANum x) n.
(** The numbers of two calls are the same. *)
Definition same_rargs (a b : rargs) : Prop :=
  ra_fun a = ra_fun b /\ num_val (ra_lambda a) = num_val (ra_lambda b) /\
  num_val (ra_nu_min a) = num_val (ra_nu_min b) /\ num_val (ra_nu_max a) = num_val (ra_nu_max b).
(** Matrix element functions that ask lambda whether it is an integer. *)
Definition asks (f : rfun) : Prop := f = F_bm2 \/ f = F_bm_pl \/ f = F_bm_ml.
(** Calls that compute: the bounds are integers, and lambda is a float wherever
    integers lack the method asked for. *)
Definition radial_ints (new_python : bool) (a : rargs) (n0 n1 : Z) : Prop :=
  num_denotes (ra_nu_min a) n0 /\ num_denotes (ra_nu_max a) n1 /\
  (new_python = true \/ ~ asks (ra_fun a) \/ (exists x, ra_lambda a = NFloat x) \/ n1 < n0).

Section RadialProps.
  Variable Gam : R -> R.
  Variable new_python : bool.
  Notation rbody := (r_body Gam new_python).
  Notation ranswer := (c_answer r_keq (r_body Gam new_python) tt).
  (** [RepRadial] on a float lambda and integer bounds, as modelled in RadialME.v. *)
  Notation Rep a n0 n1 := (RepRadial (rfun_at Gam (ra_fun a)) (num_val (ra_lambda a)) n0 n1).

  Lemma rfun_eqb_iff f g : rfun_eqb f g = true <-> f = g.
  Proof. split; [destruct f, g; cbn; congruence|intros <-; now destruct f]. Qed.
  Lemma num_eqb_iff x y : num_eqb x y = true <-> num_val x = num_val y.
  Proof. apply Reqb_iff. Qed.
  Lemma r_keq_iff a b : r_keq a b = true <-> same_rargs a b.
  Proof. unfold r_keq, same_rargs. rewrite !andb_true_iff, rfun_eqb_iff, !num_eqb_iff. tauto. Qed.
  Lemma r_sym a b : r_keq a b = true -> r_keq b a = true.
  Proof. rewrite !r_keq_iff. unfold same_rargs. intuition congruence. Qed.
  Lemma r_trans a b c : r_keq a b = true -> r_keq b c = true -> r_keq a c = true.
  Proof. rewrite !r_keq_iff. unfold same_rargs. intuition congruence. Qed.

  Lemma build_empty f n0 n1 : n1 < n0 -> build_matrix f n0 n1 =
    Ok (mkMat (n1 - n0 + 1) (n1 - n0 + 1) (fun i j => nth (Z.to_nat j) (nth (Z.to_nat i) [] []) 0%R)).
  Proof.
    intros H. unfold build_matrix, py_range. replace (Z.to_nat (n1 - n0 + 1 - 0)) with 0%nat by lia. reflexivity.
  Qed.
  Lemma build_ext f g n0 n1 : (forall i j, f i j = g i j) -> build_matrix f n0 n1 = build_matrix g n0 n1.
  Proof.
    intros H. assert (X : forall {A B} (p q : A -> res B) l, (forall x, p x = q x) -> mapM p l = mapM q l).
    { intros A B p q l E. induction l as [|x l IH]; [reflexivity|]. cbn. now rewrite E, IH. }
    unfold build_matrix. f_equal. apply X. intros i. apply X. intros j. apply H.
  Qed.
  Lemma build_raise f n0 n1 e : n0 <= n1 -> (forall i j, f i j = Raise e) -> build_matrix f n0 n1 = Raise e.
  Proof.
    intros H E. unfold build_matrix, py_range.
    replace (Z.to_nat (n1 - n0 + 1 - 0)) with (Datatypes.S (Z.to_nat (n1 - n0))) by lia.
    cbn [seq map mapM]. now rewrite E.
  Qed.
  (** An integer lambda refused by the test, in a nonempty range. *)
  Lemma t_ME_cases f l : (exists x, l = NFloat x) \/ (exists n, num_val l = IZR n /\
     forall i j, t_ME Gam new_python f l i j = let* _ := int_test new_python f n in rfun_at Gam f (IZR n) i j).
  Proof.
    destruct l as [n|[]|x]; [right; exists n|right; exists 1|right; exists 0|left; eauto]; split; reflexivity.
  Qed.
  Lemma int_test_ok f n : new_python = true \/ ~ asks f ->
    int_test new_python f n = Ok tt \/ (f = F_bm2 /\ n = -1 /\ int_test new_python f n = Raise ValueError).
  Proof.
    intros [H|H].
    - destruct f; cbn; try rewrite H; cbn; auto. unfold raise_if. destruct (n =? -1) eqn:E; cbn; [|auto].
      right. repeat split. lia.
    - destruct f; cbn; auto; exfalso; apply H; unfold asks; auto.
  Qed.

  Lemma r_body_ints u a n0 n1 : radial_ints new_python a n0 n1 -> rbody u a = Rep a n0 n1.
  Proof.
    intros (A & B & C). apply as_int_iff in A, B. unfold r_body. rewrite A, B.
    unfold RepRadial. destruct (Z_lt_le_dec n1 n0) as [L|L]; [now rewrite !build_empty|].
    assert (C' : new_python = true \/ ~ asks (ra_fun a) \/ exists x, ra_lambda a = NFloat x)
      by (destruct C as [C|[C|[C|C]]]; auto; lia).
    assert (T : forall n, (new_python = true \/ ~ asks (ra_fun a)) ->
      build_matrix (fun i j => let* _ := int_test new_python (ra_fun a) n in rfun_at Gam (ra_fun a) (IZR n) i j) n0 n1
      = build_matrix (rfun_at Gam (ra_fun a) (IZR n)) n0 n1).
    { intros n D. apply build_ext. intros i j.
      destruct (int_test_ok (ra_fun a) n D) as [->|(F & -> & ->)]; [reflexivity|]. cbn [bind]. rewrite F. cbn [rfun_at].
      unfold ME_Radial_bm2. now destruct (Req_EM_T (-1) (-1)). }
    destruct (ra_lambda a) as [n|b|x]; [| |reflexivity].
    - apply T. destruct C' as [D|[D|(x & D)]]; auto. discriminate.
    - destruct b; apply T; (destruct C' as [D|[D|(x & D)]]; [auto|auto|discriminate]).
  Qed.

  Lemma r_body_raise u a : (forall n0 n1, ~ radial_ints new_python a n0 n1) -> exists e, rbody u a = Raise e /\
    ((not_int (ANum (ra_nu_min a)) \/ not_int (ANum (ra_nu_max a)) -> e = TypeError) /\
     ((exists n0 n1, num_denotes (ra_nu_min a) n0 /\ num_denotes (ra_nu_max a) n1) ->
      e = if Req_EM_T (num_val (ra_lambda a)) (-1) then match ra_fun a with F_bm2 => ValueError | _ => AttributeError end
          else AttributeError)).
  Proof.
    intros N. unfold r_body.
    destruct (as_int (ANum (ra_nu_min a))) as [n0|] eqn:A.
    2: { exists TypeError. apply as_int_none in A. split; [reflexivity|]. split; [auto|].
         intros (n0 & n1 & D & _). now destruct (A n0). }
    destruct (as_int (ANum (ra_nu_max a))) as [n1|] eqn:B.
    2: { exists TypeError. apply as_int_none in B. split; [reflexivity|]. split; [auto|].
         intros (n & n1 & _ & D). now destruct (B n1). }
    apply as_int_iff in A, B.
    destruct (Z_lt_le_dec n1 n0) as [L|L].
    { exfalso. apply (N n0 n1). repeat split; auto. }
    assert (F : asks (ra_fun a)).
    { destruct (ra_fun a) eqn:E; unfold asks; auto; exfalso; apply (N n0 n1); (split; [exact A|split; [exact B|]]); right; left;
        rewrite E; unfold asks; intuition discriminate. }
    assert (P : new_python = false).
    { destruct new_python; [|reflexivity]. exfalso. apply (N n0 n1). repeat split; auto. }
    assert (T : forall n, num_val (ra_lambda a) = IZR n ->
      exists e, build_matrix (fun i j => let* _ := int_test new_python (ra_fun a) n in rfun_at Gam (ra_fun a) (IZR n) i j) n0 n1
        = Raise e /\ e = if Req_EM_T (num_val (ra_lambda a)) (-1)
          then match ra_fun a with F_bm2 => ValueError | _ => AttributeError end else AttributeError).
    { intros n V. rewrite V. rewrite P. eexists. split; [|reflexivity]. apply build_raise; [exact L|]. intros i j.
      assert (Q : (n =? -1) = if Req_EM_T (IZR n) (-1) then true else false).
      { destruct (Req_EM_T (IZR n) (-1)) as [Q|Q]; [apply eq_IZR in Q; lia|].
        apply Z.eqb_neq. intros ->. now apply Q. }
      destruct F as [F|[F|F]]; rewrite F; cbn [int_test]; try rewrite Q; destruct (Req_EM_T (IZR n) (-1)); reflexivity. }
    assert (G : exists e, build_matrix (t_ME Gam new_python (ra_fun a) (ra_lambda a)) n0 n1 = Raise e /\
      e = if Req_EM_T (num_val (ra_lambda a)) (-1)
          then match ra_fun a with F_bm2 => ValueError | _ => AttributeError end else AttributeError).
    { destruct (ra_lambda a) as [n|[]|x] eqn:E; [apply T; reflexivity|apply T; reflexivity|apply T; reflexivity|].
      exfalso. apply (N n0 n1). repeat split; auto. right. right. left. eauto. }
    destruct G as (e & G & Ee). exists e. split; [exact G|]. split; [|intros _; exact Ee].
    intros [D|D]; exfalso; eapply D; eauto.
  Qed.

  Lemma r_int_unique a b n0 n1 m0 m1 : same_rargs a b -> num_denotes (ra_nu_min a) n0 -> num_denotes (ra_nu_max a) n1 ->
    num_denotes (ra_nu_min b) m0 -> num_denotes (ra_nu_max b) m1 -> n0 = m0 /\ n1 = m1.
  Proof.
    intros (_ & _ & S1 & S2) A B C D. split; eapply same_denotes; eauto; exact S1 || exact S2.
  Qed.

  Lemma r_body_ok u a M : rbody u a = Ok M -> exists n0 n1, radial_ints new_python a n0 n1.
  Proof.
    intros H. destruct (as_int (ANum (ra_nu_min a))) as [n0|] eqn:A; [|unfold r_body in H; rewrite A in H; discriminate].
    destruct (as_int (ANum (ra_nu_max a))) as [n1|] eqn:B; [|unfold r_body in H; rewrite A, B in H; discriminate].
    apply as_int_iff in A, B. exists n0, n1. split; [exact A|]. split; [exact B|].
    destruct (Z_lt_le_dec n1 n0) as [L|L]; [auto|].
    destruct new_python eqn:P; [auto|]. right.
    destruct (ra_lambda a) as [n|b|x] eqn:E; [| |eauto]; left; intros F.
    all: destruct (r_body_raise u a) as (e & R & _); [|rewrite P in R; congruence].
    all: intros m0 m1 (D0 & D1 & C); pose proof (same_denotes _ _ _ _ A D0 eq_refl);
      pose proof (same_denotes _ _ _ _ B D1 eq_refl); subst m0 m1; rewrite P, E in C;
      destruct C as [C|[C|[(x & C)|C]]]; [discriminate|now apply C|discriminate|lia].
  Qed.

  Lemma r_agree u a b X Y : r_keq a b = true -> rbody u a = Ok X -> rbody u b = Ok Y -> X = Y.
  Proof.
    intros S A B. apply r_keq_iff in S. destruct (r_body_ok u a X A) as (n0 & n1 & Da).
    destruct (r_body_ok u b Y B) as (m0 & m1 & Db).
    rewrite (r_body_ints u a _ _ Da) in A. rewrite (r_body_ints u b _ _ Db) in B.
    destruct Da as (A1 & A2 & _), Db as (B1 & B2 & _).
    destruct (r_int_unique a b _ _ _ _ S A1 A2 B1 B2) as [-> ->].
    destruct S as (E1 & E2 & _). rewrite E1, E2 in A. congruence.
  Qed.

  (** [RepRadial] in a new process: the matrix of the numbers passed, when the
      bounds are integers and integers can be asked whether they are integers
      or need not be; otherwise an exception. *)
  Theorem C85_radial_new_process : forall a,
    (forall n0 n1, radial_ints new_python a n0 n1 -> ranswer [] a = Rep a n0 n1) /\
    (not_int (ANum (ra_nu_min a)) \/ not_int (ANum (ra_nu_max a)) -> ranswer [] a = Raise TypeError) /\
    (forall n0 n1, num_denotes (ra_nu_min a) n0 -> num_denotes (ra_nu_max a) n1 -> n0 <= n1 ->
       new_python = false -> asks (ra_fun a) -> (forall x, ra_lambda a <> NFloat x) -> num_val (ra_lambda a) <> (-1)%R ->
       ranswer [] a = Raise AttributeError).
  Proof.
    intros a. assert (E : ranswer [] a = rbody tt a).
    { unfold c_answer, c_call. cbn [c_after fold_left c_table c_get c_env]. now destruct (rbody tt a). }
    rewrite E. split; [|split].
    - intros n0 n1 D. now apply r_body_ints.
    - intros H. destruct (r_body_raise tt a) as (e & -> & T & _); [|now rewrite (T H)].
      intros n0 n1 (A & B & _). destruct H as [H|H]; eapply H; eauto.
    - intros n0 n1 A B L P F X V. destruct (r_body_raise tt a) as (e & -> & _ & T).
      + intros m0 m1 (A' & B' & C). pose proof (same_denotes _ _ _ _ A A' eq_refl).
        pose proof (same_denotes _ _ _ _ B B' eq_refl). subst m0 m1.
        destruct C as [C|[C|[(x & C)|C]]]; [congruence|now apply C|now apply (X x)|lia].
      + rewrite T by eauto. destruct (Req_EM_T (num_val (ra_lambda a)) (-1)); [contradiction|reflexivity].
  Qed.

  (** After any history: a call that computes in a new process is answered
      alike; one that does not returns a matrix exactly when a call with the
      same numbers that does was made since the table was cleared. *)
  Theorem C85_radial : forall h a, one_setting h ->
    (forall n0 n1, radial_ints new_python a n0 n1 -> ranswer h a = Rep a n0 n1) /\
    ((forall n0 n1, ~ radial_ints new_python a n0 n1) -> forall M,
       ranswer h a = Ok M <->
       exists b n0 n1, called_since_clear h b /\ same_rargs a b /\ radial_ints new_python b n0 n1 /\ Rep a n0 n1 = Ok M).
  Proof.
    intros h a H. split.
    - intros n0 n1 D. rewrite <- (r_body_ints tt a _ _ D). destruct (rbody tt a) as [M|e] eqn:B.
      + exact (answer_ok r_keq rbody r_sym r_agree tt h a M H B).
      + destruct (answer_raise r_keq rbody r_sym r_trans r_agree tt h a e H B)
          as [(b & M & _ & Q & B' & _)|[_ A]]; [|exact A]. exfalso.
        apply r_keq_iff in Q. destruct (r_body_ok tt b M B') as (m0 & m1 & Db).
        rewrite (r_body_ints tt a _ _ D) in B. rewrite (r_body_ints tt b _ _ Db) in B'.
        destruct D as (A1 & A2 & _), Db as (B1 & B2 & _).
        destruct (r_int_unique a b _ _ _ _ Q A1 A2 B1 B2) as [-> ->].
        destruct Q as (E1 & E2 & _). rewrite E1, E2 in B. congruence.
    - intros N M. rewrite (answer_iff r_keq rbody r_sym r_trans r_agree tt h a M H). split.
      + intros [B|(b & C & Q & B)].
        * destruct (r_body_ok tt a M B) as (n0 & n1 & D). now destruct (N n0 n1).
        * apply r_keq_iff in Q. destruct (r_body_ok tt b M B) as (m0 & m1 & Db).
          rewrite (r_body_ints tt b _ _ Db) in B. exists b, m0, m1.
          split; [exact C|]. split; [exact Q|]. split; [exact Db|].
          destruct Q as (E1 & E2 & _). now rewrite E1, E2.
      + intros (b & n0 & n1 & C & S & D & X). right. exists b.
        rewrite r_keq_iff, (r_body_ints tt b _ _ D). split; [exact C|]. split; [exact S|].
        destruct S as (E1 & E2 & _). now rewrite <- E1, <- E2.
  Qed.
End RadialProps.

(** The functions passed to [RepRadial] are those of the elementary radial
    matrices of RadialME.v. *)
Definition elem_of (f : rfun) : elem :=
  match f with
  | F_Sm => M_Sm | F_S0 => M_S0 | F_Sp => M_Sp | F_b2 => M_b2 | F_bm2 => M_bm2 | F_D2b => M_D2b | F_bDb => M_bDb
  | F_b_pl => M_b_pl | F_bm_pl => M_bm_pl | F_Db_pl => M_Db_pl
  | F_b_ml => M_b_ml | F_bm_ml => M_bm_ml | F_Db_ml => M_Db_ml
  end.
Theorem C85_radial_functions : forall Gam Msqrt Minv f lambdaa n0 n1,
  RepRadial (rfun_at Gam f) lambdaa n0 n1 = Rep_elem Gam Msqrt Minv (elem_of f) lambdaa n0 n1.
Proof. intros Gam Msqrt Minv f lambdaa n0 n1. destruct f; reflexivity. Qed.

(** Before Python 3.12 whether an integer lambda is accepted is decided by the
    calls made before; with any Python, whether float bounds are. *)
Theorem C85_radial_history_refuted : forall Gam,
  (exists a b M, c_answer r_keq (r_body Gam false) tt [] a = Raise AttributeError /\
     c_answer r_keq (r_body Gam false) tt [CCall b] a = Ok M /\ nrows M = 1) /\
  (forall new_python, exists a b M, c_answer r_keq (r_body Gam new_python) tt [] a = Raise TypeError /\
     c_answer r_keq (r_body Gam new_python) tt [CCall b] a = Ok M /\ nrows M = 2).
Proof.
  intros Gam. assert (One : forall k : rargs, one_setting (E := unit) [CCall k]) by (intros k e [F|[]]; discriminate).
  assert (Call : forall k : rargs, called_since_clear (E := unit) [CCall k] k)
    by (intros k; exists [], []; split; [reflexivity|intros []]).
  assert (Last : forall f M, f 0 0 = Ok M -> exists X, build_matrix f 0 0 = Ok X /\ nrows X = 1).
  { intros f M E. unfold build_matrix. change (py_range 0 (0 - 0 + 1)) with [0]. cbn [mapM]. change (0 + 0) with 0. rewrite E. cbn [bind]. eexists. split; reflexivity. }
  split.
  - pose (a := mkRA F_bm_pl (NInt 3) (NInt 0) (NInt 0)). pose (b := mkRA F_bm_pl (NFloat 3) (NInt 0) (NInt 0)).
    assert (X : exists M, RepRadial (rfun_at Gam F_bm_pl) 3 0 0 = Ok M /\ nrows M = 1).
    { eapply Last. cbn [rfun_at]. unfold ME_Radial_bm_pl.
      assert (E : Rleb 3 (- IZR 0) = false) by (unfold Rleb; destruct (Rle_dec 3 (- IZR 0)); [lra|reflexivity]).
      rewrite E, andb_false_r. reflexivity. }
    destruct X as (M & X & Y). exists a, b, M. split; [|split; [|exact Y]].
    + apply (C85_radial_new_process Gam false a) with (n0 := 0) (n1 := 0);
        [constructor|constructor|lia|reflexivity|right; left; reflexivity|intros x; discriminate|].
      cbn. apply not_eq_sym. apply Rlt_not_eq. lra.
    + apply (C85_radial Gam false [CCall b] a (One b)).
      * intros n0 n1 (A & B & C). inversion A; inversion B; subst.
        destruct C as [C|[C|[(x & C)|C]]]; [discriminate|apply C; right; left; reflexivity|discriminate|lia].
      * exists b, 0, 0. split; [apply Call|]. split; [repeat split; reflexivity|]. split; [|exact X].
        split; [constructor|split; [constructor|]]. right. right. left. exists 3%R. reflexivity.
  - intros np. pose (a := mkRA F_S0 (NFloat 3) (NFloat 0) (NInt 1)). pose (b := mkRA F_S0 (NFloat 3) (NInt 0) (NInt 1)).
    assert (X : exists M, RepRadial (rfun_at Gam F_S0) 3 0 1 = Ok M /\ nrows M = 2).
    { unfold RepRadial, build_matrix. cbn. eexists. split; reflexivity. }
    destruct X as (M & X & Y). exists a, b, M. split; [|split; [|exact Y]].
    + apply (C85_radial_new_process Gam np a). left. intros n D. inversion D.
    + apply (C85_radial Gam np [CCall b] a (One b)).
      * intros n0 n1 (A & _). inversion A.
      * exists b, 0, 1. split; [apply Call|]. split; [repeat split; reflexivity|]. split; [|exact X].
        split; [constructor|split; [constructor|]]. right. left. unfold asks. intuition discriminate.
Qed.

(** ** Cases *)

(** True and 1 are the same bound; 2.0 is refused. *)
Example C85_case : t_require_nonnegint_range (ANum (NBool true)) (ANum (NInt 4)) = Ok (1, 4) /\
  t_iquo (ANum (NInt 7)) (ANum (NFloat 2)) = Raise TypeError /\
  t_iquo (ANum (NInt 7)) (ANum (NInt 2)) = Ok 3 /\
  t_iquo (ANum (NInt (-7))) (ANum (NFloat 2)) = Raise ValueError.
Proof. repeat split; reflexivity. Qed.

(** A call with a boolean bound, and one with a float bound, of which the
    hypotheses of the theorems on the momentum matrices hold. *)
Example C85_momentum_case :
  (exists i, denotes_call (TPiPi (ANum (NInt 2)), mkTA 1 (5 / 2) (ANum (NBool false)) (ANum (NInt 3)) (ANum (NInt 0))
    (ANum (NBool true)) (ANum (NInt 0)) (ANum (NInt 4))) i /\ fst i = NPiPi 2 /\ xa_v_max (snd i) = 1) /\
  (forall i, ~ denotes_call (TPi, mkTA 1 (5 / 2) (ANum (NInt 0)) (ANum (NFloat 3)) (ANum (NInt 0))
    (ANum (NInt 1)) (ANum (NInt 0)) (ANum (NInt 4))) i) /\
  range_plausible (ANum (NInt 0)) (ANum (NFloat 3)) /\
  @one_setting (Z -> res Z) (tname * targs)
    [CCall (TPi, mkTA 1 2 (AOther 7) (AOther 8) (AOther 0) (AOther 0) (AOther 0) (AOther 0)); CClear].
Proof.
  split; [|split; [|split]].
  - exists (NPiPi 2, mkXA 1 (5 / 2) 0 3 0 1 0 4). split; [|split; reflexivity]. constructor; cbn; auto; constructor.
  - intros i D. inversion D as [? ? ? ? ? ? ? ? H2]; subst. cbn in H2. inversion H2.
  - repeat split; intros; repeat match goal with H : denotes _ _ |- _ => inversion H; clear H; subst end; lia.
  - intros e [F|[F|[]]]; discriminate.
Qed.

Print Assumptions C85_validators.
Print Assumptions C85_integers.
Print Assumptions C85_momentum_integers.
Print Assumptions C85_momentum_others.
Print Assumptions C85_momentum_raises.
Print Assumptions C85_momentum_settings.
Print Assumptions C85_momentum_history_refuted.
Print Assumptions C85_momentum_new_process.
Print Assumptions C85_harmonics.
Print Assumptions C85_radial_new_process.
Print Assumptions C85_radial.
Print Assumptions C85_radial_functions.
Print Assumptions C85_radial_history_refuted.
