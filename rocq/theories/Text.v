(** Text: strings as lists of code points, decimal printing, [int] of a digit
    string, and the matching of the regular expressions of so5cg.py, which are
    sequences of literals and groups of one or more digits between ^ and $. *)

From Coq Require Import String Ascii.
From Coq Require Import Lia ZifyBool ZifyNat.
From Verif Require Import PyBase.
Open Scope Z_scope.
Ltac Zify.zify_post_hook ::= Z.div_mod_to_equations.

Definition text : Type := list Z.

Fixpoint chars (s : string) : text :=
  match s with
  | EmptyString => []
  | String c s' => Z.of_nat (nat_of_ascii c) :: chars s'
  end.

(** [f'{n}'] for 0 <= n. *)
Fixpoint dec_fuel (k : nat) (n : Z) : text :=
  match k with
  | O => []
  | S k' => if n <? 10 then [48 + n] else dec_fuel k' (n / 10) ++ [48 + n mod 10]
  end.
Definition dec (n : Z) : text := dec_fuel (S (Z.to_nat n)) n.

(** Decimal digit characters (the class \d of Python's [re] on [str], which
    has all Unicode decimal digits) and their values.  Only the ASCII part is
    fixed. *)
Definition digits_ok (udigit : Z -> option Z) : Prop :=
  (forall c, 48 <= c <= 57 -> udigit c = Some (c - 48)) /\
  (forall c d, udigit c = Some d -> 0 <= d <= 9) /\
  (forall c, c < 128 -> udigit c <> None -> 48 <= c <= 57).

Definition ascii_digit (c : Z) : option Z :=
  if (48 <=? c) && (c <=? 57) then Some (c - 48) else None.

Lemma ascii_digits_ok : digits_ok ascii_digit.
Proof.
  unfold ascii_digit. split; [|split].
  - intros c H. replace (48 <=? c) with true by lia. replace (c <=? 57) with true by lia. reflexivity.
  - intros c d H. destruct (48 <=? c) eqn:A; destruct (c <=? 57) eqn:B; cbn in H; try discriminate.
    injection H as <-. lia.
  - intros c _ H. destruct (48 <=? c) eqn:A; destruct (c <=? 57) eqn:B; cbn in H; try congruence. lia.
Qed.

Inductive item : Type := Lit (l : text) | Digits.

Section Digits.
  Variable udigit : Z -> option Z.

  Definition is_digit (c : Z) : bool := match udigit c with Some _ => true | None => false end.
  Definition dval (c : Z) : Z := match udigit c with Some d => d | None => 0 end.

  (** [int(s)] for a non-empty string of digits (no limit on the length). *)
  Definition int_of (s : text) : Z := fold_left (fun a c => 10 * a + dval c) s 0.

  (** The ways in which \d+ can match a prefix, longest first (greedy). *)
  Fixpoint digit_splits (s : text) : list (text * text) :=
    match s with
    | [] => []
    | c :: s' =>
        if is_digit c
        then map (fun p => (c :: fst p, snd p)) (digit_splits s') ++ [([c], s')]
        else []
    end.

  Fixpoint strip (l s : text) : option text :=
    match l with
    | [] => Some s
    | c :: l' =>
        match s with
        | [] => None
        | c' :: s' => if c =? c' then strip l' s' else None
        end
    end.

  (** All matches, in the order in which the engine tries them, as lists of
      captured groups.  [$] matches at the end or before a final newline. *)
  Fixpoint rmatch (re : list item) (s : text) : list (list text) :=
    match re with
    | [] => match s with [] => [[]] | [c] => if c =? 10 then [[]] else [] | _ => [] end
    | Lit l :: re' => match strip l s with Some s' => rmatch re' s' | None => [] end
    | Digits :: re' =>
        flat_map (fun p => map (cons (fst p)) (rmatch re' (snd p))) (digit_splits s)
    end.

  (** [m = re.match(name)], then [int] of each group, or [None]. *)
  Definition match_ints (re : list item) (name : text) : option (list Z) :=
    match rmatch re name with
    | g :: _ => Some (map int_of g)
    | [] => None
    end.

  (** ** Specification: filling the digit groups *)

  Fixpoint fill (re : list item) (ds : list text) : option text :=
    match re with
    | [] => match ds with [] => Some [] | _ => None end
    | Lit l :: re' => option_map (fun t => l ++ t) (fill re' ds)
    | Digits :: re' =>
        match ds with
        | d :: ds' => option_map (fun t => d ++ t) (fill re' ds')
        | [] => None
        end
    end.

  Definition digit_string (d : text) : Prop := d <> [] /\ Forall (fun c => is_digit c = true) d.

  (** The names accepted: fixed text with digit strings, possibly followed by
      one newline. *)
  Definition spells (re : list item) (name : text) (ds : list text) : Prop :=
    Forall digit_string ds /\ exists t, fill re ds = Some t /\ (name = t \/ name = t ++ [10]).

  (** Each digit group is followed by a literal that starts with a non-digit,
      or by the end. *)
  Fixpoint separated (re : list item) : Prop :=
    match re with
    | [] => True
    | Lit _ :: re' => separated re'
    | Digits :: re' =>
        match re' with
        | [] => True
        | Lit (c :: _) :: _ => is_digit c = false
        | _ => False
        end /\ separated re'
    end.

  Lemma strip_spec l s t : strip l s = Some t <-> s = l ++ t.
  Proof.
    revert s. induction l as [|c l IH]; intros s; cbn.
    - split; [congruence|]. intros ->. reflexivity.
    - destruct s as [|c' s]; [split; discriminate|].
      destruct (Z.eqb_spec c c') as [->|N].
      + rewrite IH. split; [now intros ->|]. congruence.
      + split; [discriminate|]. congruence.
  Qed.

  Lemma digit_splits_spec s d t : In (d, t) (digit_splits s) <-> digit_string d /\ s = d ++ t.
  Proof.
    revert d t. induction s as [|c s IH]; intros d t; cbn [digit_splits].
    - split; [intros []|]. intros [[N _] E]. destruct d; [congruence|discriminate].
    - destruct (is_digit c) eqn:Ec.
      + rewrite in_app_iff, in_map_iff. cbn. split.
        * intros [([d' t'] & E & H)|[E|[]]].
          -- cbn in E. injection E as <- <-. apply IH in H. destruct H as [[N F] ->].
             split; [split; [discriminate|now constructor]|reflexivity].
          -- injection E as <- <-. split; [split; [discriminate|now repeat constructor]|reflexivity].
        * intros [[N F] E]. destruct d as [|c' d]; [congruence|]. cbn in E. injection E as E1 E2. subst c' s.
          inversion F as [|? ? _ F']; subst. destruct d as [|c2 d].
          -- right. now left.
          -- left. exists (c2 :: d, t). split; [reflexivity|]. apply IH.
             split; [split; [discriminate|assumption]|reflexivity].
      + split; [intros []|]. intros [[N F] E]. destruct d as [|c' d]; [congruence|].
        cbn in E. injection E as E1 E2. subst. inversion F; congruence.
  Qed.

  Lemma rmatch_spec re s ds : In ds (rmatch re s) <-> spells re s ds.
  Proof.
    revert s ds. induction re as [|[l|] re IH]; intros s ds; cbn [rmatch].
    - unfold spells. cbn [fill]. destruct ds as [|d ds].
      + split.
        * intros H. split; [constructor|]. exists []. split; [reflexivity|].
          destruct s as [|c [|c2 s]]; [auto| |destruct H].
          destruct (c =? 10) eqn:Ec; [apply Z.eqb_eq in Ec; subst c; auto|destruct H].
        * intros [_ (t & E & H)]. injection E as <-. destruct H as [->| ->]; cbn; auto.
      + split.
        * intros H. destruct s as [|c [|c2 s]]; [destruct H as [H|[]]; discriminate| |destruct H].
          destruct (c =? 10); [destruct H as [H|[]]; discriminate|destruct H].
        * intros [_ (t & E & _)]. discriminate.
    - unfold spells. cbn [fill]. destruct (strip l s) as [s'|] eqn:Es.
      + apply strip_spec in Es. subst s. rewrite IH. unfold spells. split.
        * intros [F (t & E & H)]. split; [assumption|]. exists (l ++ t). rewrite E. split; [reflexivity|].
          destruct H as [->| ->]; [auto|right; now rewrite app_assoc].
        * intros [F (t & E & H)]. split; [assumption|]. destruct (fill re ds) as [t'|]; [|discriminate].
          cbn in E. injection E as <-. exists t'. split; [reflexivity|].
          rewrite <- app_assoc in H. destruct H as [H|H]; apply app_inv_head in H; auto.
      + split; [intros []|]. intros [F (t & E & H)]. exfalso.
        destruct (fill re ds) as [t'|]; [|discriminate]. cbn in E. injection E as <-.
        assert (exists s', s = l ++ s') as (s' & Hs).
        { destruct H as [->| ->]; [eauto|rewrite <- app_assoc; eauto]. }
        apply strip_spec in Hs. congruence.
    - rewrite in_flat_map. unfold spells. cbn [fill]. split.
      + intros ([d t] & Hd & H). cbn [fst snd] in H. apply digit_splits_spec in Hd.
        destruct Hd as [Hd ->]. apply in_map_iff in H. destruct H as (ds' & <- & H).
        apply IH in H. destruct H as [F (t' & E & H)].
        split; [now constructor|]. exists (d ++ t'). rewrite E. split; [reflexivity|].
        destruct H as [->| ->]; [auto|right; now rewrite app_assoc].
      + intros [F (t & E & H)]. destruct ds as [|d ds]; [discriminate|].
        inversion F as [|? ? Fd F']; subst. destruct (fill re ds) as [t'|] eqn:E'; [|discriminate].
        cbn in E. injection E as <-.
        exists (d, if list_eq_dec Z.eq_dec s (d ++ t') then t' else t' ++ [10]). cbn [fst snd]. split.
        * apply digit_splits_spec. split; [assumption|].
          destruct (list_eq_dec Z.eq_dec s (d ++ t')); [assumption|].
          destruct H as [H|H]; [congruence|]. now rewrite <- app_assoc in H.
        * apply in_map. apply IH. split; [assumption|]. exists t'. split; [assumption|].
          destruct (list_eq_dec Z.eq_dec s (d ++ t')); auto.
  Qed.

  (** A digit run followed by nothing or a non-digit is determined. *)
  Definition stops (s : text) : Prop := match s with [] => True | c :: _ => is_digit c = false end.

  Lemma run_unique d1 t1 d2 t2 :
    Forall (fun c => is_digit c = true) d1 -> Forall (fun c => is_digit c = true) d2 ->
    stops t1 -> stops t2 -> d1 ++ t1 = d2 ++ t2 -> d1 = d2 /\ t1 = t2.
  Proof.
    revert d2. induction d1 as [|c d1 IH]; intros d2 F1 F2 S1 S2 E.
    - destruct d2 as [|c2 d2]; [auto|]. cbn in E. subst t1. cbn in S1. inversion F2; congruence.
    - inversion F1; subst. destruct d2 as [|c2 d2].
      + cbn in E. subst t2. cbn in S2. congruence.
      + cbn in E. injection E as -> E. inversion F2; subst.
        destruct (IH d2) as [-> ->]; auto.
  Qed.

  Lemma fill_stops re ds t : separated (Digits :: re) -> fill re ds = Some t ->
    is_digit 10 = false -> stops t /\ stops (t ++ [10]).
  Proof.
    intros [HS _] E H10. destruct re as [|[[|c l]|] re]; try contradiction.
    - cbn in E. destruct ds; [|discriminate]. injection E as <-. cbn. auto.
    - cbn in E. destruct (fill re ds); [|discriminate]. injection E as <-. cbn. auto.
  Qed.

  Lemma spells_unique re name ds1 ds2 : separated re -> is_digit 10 = false ->
    spells re name ds1 -> spells re name ds2 -> ds1 = ds2.
  Proof.
    intros HS H10 [F1 (t1 & E1 & N1)] [F2 (t2 & E2 & N2)].
    set (s1 := if list_eq_dec Z.eq_dec name t1 then [] else [10]) in *.
    set (s2 := if list_eq_dec Z.eq_dec name t2 then [] else [10]) in *.
    assert (M1 : name = t1 ++ s1).
    { unfold s1. destruct (list_eq_dec Z.eq_dec name t1); [now rewrite app_nil_r|tauto]. }
    assert (M2 : name = t2 ++ s2).
    { unfold s2. destruct (list_eq_dec Z.eq_dec name t2); [now rewrite app_nil_r|tauto]. }
    assert (S1 : s1 = [] \/ s1 = [10]) by (unfold s1; destruct (list_eq_dec Z.eq_dec name t1); auto).
    assert (S2 : s2 = [] \/ s2 = [10]) by (unfold s2; destruct (list_eq_dec Z.eq_dec name t2); auto).
    clearbody s1 s2. clear N1 N2. rewrite M1 in M2. clear M1.
    revert ds1 ds2 F1 F2 t1 t2 E1 E2 M2 HS.
    induction re as [|[l|] re IH]; intros ds1 ds2 F1 F2 t1 t2 E1 E2 M HS; cbn [fill] in E1, E2.
    - destruct ds1; [|discriminate]. destruct ds2; [reflexivity|discriminate].
    - destruct (fill re ds1) as [u1|] eqn:G1; [|discriminate].
      destruct (fill re ds2) as [u2|] eqn:G2; [|discriminate].
      cbn in E1, E2. injection E1 as <-. injection E2 as <-.
      rewrite <- !app_assoc in M. apply app_inv_head in M. cbn in HS. eauto.
    - destruct ds1 as [|d1 ds1]; [discriminate|]. destruct ds2 as [|d2 ds2]; [discriminate|].
      destruct (fill re ds1) as [u1|] eqn:G1; [|discriminate].
      destruct (fill re ds2) as [u2|] eqn:G2; [|discriminate].
      cbn in E1, E2. injection E1 as <-. injection E2 as <-.
      inversion F1 as [|? ? [_ D1] F1']; subst. inversion F2 as [|? ? [_ D2] F2']; subst.
      rewrite <- !app_assoc in M.
      destruct (fill_stops re ds1 u1 HS G1 H10) as [P1 P2].
      destruct (fill_stops re ds2 u2 HS G2 H10) as [P3 P4].
      apply run_unique in M; [|assumption|assumption| |].
      + destruct M as [-> M]. f_equal. destruct HS as [_ HS]. eauto.
      + destruct S1 as [->| ->]; [now rewrite app_nil_r|assumption].
      + destruct S2 as [->| ->]; [now rewrite app_nil_r|assumption].
  Qed.

  Lemma match_ints_spec re name ns : separated re -> is_digit 10 = false ->
    match_ints re name = Some ns <-> exists ds, spells re name ds /\ ns = map int_of ds.
  Proof.
    intros HS H10. unfold match_ints. split.
    - destruct (rmatch re name) as [|g l] eqn:E; [discriminate|]. intros H. injection H as <-.
      exists g. split; [|reflexivity]. apply rmatch_spec. rewrite E. now left.
    - intros (ds & H & ->). pose proof H as H'. apply rmatch_spec in H'.
      destruct (rmatch re name) as [|g l] eqn:E; [destruct H'|]. do 2 f_equal.
      apply (spells_unique re name); auto. apply rmatch_spec. rewrite E. now left.
  Qed.

  Lemma match_ints_None re name : match_ints re name = None <-> forall ds, ~ spells re name ds.
  Proof.
    unfold match_ints. split.
    - intros H ds Hs. apply rmatch_spec in Hs. destruct (rmatch re name); [destruct Hs|discriminate].
    - intros H. destruct (rmatch re name) as [|g l] eqn:E; [reflexivity|].
      exfalso. apply (H g). apply rmatch_spec. rewrite E. now left.
  Qed.

  (** ** Decimal notation *)

  Hypothesis Hdig : digits_ok udigit.

  Lemma ascii_is_digit c : 48 <= c <= 57 -> is_digit c = true /\ dval c = c - 48.
  Proof. intros H. unfold is_digit, dval. destruct Hdig as [H1 _]. now rewrite H1. Qed.

  Lemma ascii_nondigit c : c < 128 -> ~ 48 <= c <= 57 -> is_digit c = false.
  Proof.
    intros H N. unfold is_digit. destruct Hdig as (_ & _ & H3). specialize (H3 c H).
    destruct (udigit c); [|reflexivity]. exfalso. apply N, H3. discriminate.
  Qed.

  Lemma int_of_app s c : int_of (s ++ [c]) = 10 * int_of s + dval c.
  Proof. unfold int_of. now rewrite fold_left_app. Qed.

  Lemma dec_fuel_ok k n : 0 <= n < Z.of_nat k ->
    dec_fuel k n <> [] /\ Forall (fun c => 48 <= c <= 57) (dec_fuel k n) /\ int_of (dec_fuel k n) = n.
  Proof.
    revert n. induction k as [|k IH]; intros n H; [lia|]. cbn [dec_fuel].
    destruct (Z.ltb_spec n 10).
    - split; [discriminate|]. split; [repeat constructor; lia|].
      unfold int_of. cbn [fold_left]. destruct (ascii_is_digit (48 + n)) as [_ ->]; lia.
    - destruct (IH (n / 10)) as (A & B & C); [lia|]. split.
      + intros E. apply app_eq_nil in E. destruct E; discriminate.
      + split.
        * apply Forall_app. split; [assumption|]. constructor; [lia|constructor].
        * rewrite int_of_app, C. destruct (ascii_is_digit (48 + n mod 10)) as [_ ->]; lia.
  Qed.

  Lemma dec_ok n : 0 <= n -> digit_string (dec n) /\ int_of (dec n) = n.
  Proof.
    intros H. destruct (dec_fuel_ok (S (Z.to_nat n)) n) as (A & B & C); [lia|].
    split; [|exact C]. split; [exact A|].
    eapply Forall_impl; [|exact B]. intros c Hc. now apply ascii_is_digit.
  Qed.
End Digits.
