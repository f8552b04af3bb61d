(** C08, C09: data file names. *)

From Coq Require Import String.
From Coq Require Import Lia ZifyBool ZifyNat.
From Verif Require Import PyBase PyFacts Compat PyDict Text SO5Files.
Open Scope Z_scope.
Ltac Zify.zify_post_hook ::= Z.div_mod_to_equations.

Definition legal (v1 v2 a2 L2 v3 : Z) : Prop :=
  0 <= v1 /\ 0 <= v2 /\ 1 <= a2 /\ 0 <= L2 /\ 0 <= v3.

Lemma require_quintet_ok v1 v2 a2 L2 v3 : legal v1 v2 a2 L2 v3 ->
  require_SO5Quintet v1 v2 a2 L2 v3 = Ok tt.
Proof.
  intros (A & B & C & D & E). unfold require_SO5Quintet, require_SO5Triple, require_posint, require_nonnegint.
  replace (v1 <? 0) with false by lia. replace (v2 <? 0) with false by lia.
  replace (a2 <? 0) with false by lia. replace (L2 <? 0) with false by lia.
  replace (v3 <? 0) with false by lia. cbn.
  replace (a2 =? 0) with false by lia. reflexivity.
Qed.

Lemma require_quintet_bad v1 v2 a2 L2 v3 : ~ legal v1 v2 a2 L2 v3 ->
  require_SO5Quintet v1 v2 a2 L2 v3 = Raise ValueError.
Proof.
  intros N. unfold legal in N.
  unfold require_SO5Quintet, require_SO5Triple, require_posint, require_nonnegint, raise_if.
  destruct (Z.ltb_spec v1 0); [reflexivity|]. destruct (Z.ltb_spec v2 0); [reflexivity|].
  destruct (Z.ltb_spec a2 0); [reflexivity|].
  cbn. destruct (Z.eqb_spec a2 0); [reflexivity|]. cbn.
  destruct (Z.ltb_spec L2 0); [reflexivity|]. cbn. destruct (Z.ltb_spec v3 0); [reflexivity|].
  exfalso. apply N. lia.
Qed.

Section S.
  Variable udigit : Z -> option Z.
  Hypothesis Hd : digits_ok udigit.

  Lemma nl_nondigit : is_digit udigit 10 = false.
  Proof. apply ascii_nondigit; [assumption|lia|lia]. Qed.

  Lemma sep_datafile : separated udigit datafile_name_re.
  Proof.
    cbn. repeat split; apply ascii_nondigit; try assumption; cbn; lia.
  Qed.
  Lemma sep_dir2 : separated udigit dir2_name_re.
  Proof. cbn. repeat split; apply ascii_nondigit; try assumption; cbn; lia. Qed.
  Lemma sep_dir1 : separated udigit dir1_name_re.
  Proof. cbn. auto. Qed.

  Lemma fill_length re ds t : fill re ds = Some t ->
    length ds = length (filter (fun i => match i with Digits => true | _ => false end) re).
  Proof.
    revert ds t. induction re as [|[l|] re IH]; intros ds t H; cbn [fill] in H.
    - destruct ds; [reflexivity|discriminate].
    - destruct (fill re ds) as [u|] eqn:E; [|discriminate]. cbn. eauto.
    - destruct ds as [|d ds]; [discriminate|]. destruct (fill re ds) as [u|] eqn:E; [|discriminate].
      cbn. f_equal. eauto.
  Qed.

  Lemma dir1_spec name v2 : parse_dir1_name udigit name = Some v2 <->
    exists d, digit_string udigit d /\
      (name = chars "v2=" ++ d \/ name = chars "v2=" ++ d ++ [10])%list /\ v2 = int_of udigit d.
  Proof.
    unfold parse_dir1_name. split.
    - intros H. destruct (match_ints udigit dir1_name_re name) as [ns|] eqn:E; [|discriminate].
      apply match_ints_spec in E; [|apply sep_dir1|apply nl_nondigit].
      destruct E as (ds & [F (t & E & N)] & ->).
      pose proof (fill_length _ _ _ E) as HL. cbn in HL.
      destruct ds as [|d [|d2 ds]]; try discriminate. cbn in H. injection H as <-.
      cbn [fill dir1_name_re option_map] in E. injection E as <-.
      inversion F; subst. exists d. split; [assumption|]. split; [|reflexivity].
      rewrite app_nil_r in N. exact N.
    - intros (d & F & N & ->).
      assert (E : match_ints udigit dir1_name_re name = Some [int_of udigit d]).
      { apply match_ints_spec; [apply sep_dir1|apply nl_nondigit|].
        exists [d]. split; [|reflexivity]. split; [repeat (constructor; [assumption|]); constructor|].
        exists (chars "v2=" ++ d)%list. split.
        - cbn [fill dir1_name_re option_map]. now rewrite app_nil_r.
        - exact N. }
      now rewrite E.
  Qed.

  Lemma dir2_spec name v1 v2 v3 : parse_dir2_name udigit name = Some (v1, v2, v3) <->
    exists d1 d2 d3, digit_string udigit d1 /\ digit_string udigit d2 /\ digit_string udigit d3 /\
      (let t := (chars "SO5CG_" ++ d1 ++ chars "_" ++ d2 ++ chars "_" ++ d3)%list in
       name = t \/ name = (t ++ [10])%list) /\
      v1 = int_of udigit d1 /\ v2 = int_of udigit d2 /\ v3 = int_of udigit d3.
  Proof.
    unfold parse_dir2_name. split.
    - intros H. destruct (match_ints udigit dir2_name_re name) as [ns|] eqn:E; [|discriminate].
      apply match_ints_spec in E; [|apply sep_dir2|apply nl_nondigit].
      destruct E as (ds & [F (t & E & N)] & ->).
      pose proof (fill_length _ _ _ E) as HL. cbn in HL.
      destruct ds as [|d1 [|d2 [|d3 [|d4 ds]]]]; try discriminate.
      cbn [map] in H. injection H as <- <- <-.
      cbn [fill dir2_name_re option_map] in E. injection E as <-.
      inversion F as [|? ? F1 F']; subst. inversion F' as [|? ? F2 F'']; subst.
      inversion F'' as [|? ? F3 _]; subst.
      exists d1, d2, d3. rewrite app_nil_r in N. repeat split; try apply F1; try apply F2; try apply F3.
      exact N.
    - intros (d1 & d2 & d3 & F1 & F2 & F3 & N & -> & -> & ->).
      assert (E : match_ints udigit dir2_name_re name
        = Some [int_of udigit d1; int_of udigit d2; int_of udigit d3]).
      { apply match_ints_spec; [apply sep_dir2|apply nl_nondigit|].
        exists [d1; d2; d3]. split; [|reflexivity]. split; [repeat (constructor; [assumption|]); constructor|].
        eexists. split; [cbn [fill dir2_name_re option_map]; reflexivity|].
        rewrite app_nil_r. exact N. }
      now rewrite E.
  Qed.

  Lemma datafile_spec name v1 v2 a2 L2 v3 :
    parse_datafile_name udigit name = Some (v1, v2, a2, L2, v3) <->
    exists d1 d2 d3 d4 d5, digit_string udigit d1 /\ digit_string udigit d2 /\
      digit_string udigit d3 /\ digit_string udigit d4 /\ digit_string udigit d5 /\
      (let t := (chars "SO5CG_" ++ d1 ++ chars "_" ++ d2 ++ chars "-" ++ d3 ++ chars "-" ++ d4
                 ++ chars "_" ++ d5)%list in
       name = t \/ name = (t ++ [10])%list) /\
      v1 = int_of udigit d1 /\ v2 = int_of udigit d2 /\ a2 = int_of udigit d3 /\
      L2 = int_of udigit d4 /\ v3 = int_of udigit d5.
  Proof.
    unfold parse_datafile_name. split.
    - intros H. destruct (match_ints udigit datafile_name_re name) as [ns|] eqn:E; [|discriminate].
      apply match_ints_spec in E; [|apply sep_datafile|apply nl_nondigit].
      destruct E as (ds & [F (t & E & N)] & ->).
      pose proof (fill_length _ _ _ E) as HL. cbn in HL.
      destruct ds as [|d1 [|d2 [|d3 [|d4 [|d5 [|d6 ds]]]]]]; try discriminate.
      cbn [map] in H. injection H as <- <- <- <- <-.
      cbn [fill datafile_name_re option_map] in E. injection E as <-.
      apply Forall_inv in F as F1. apply Forall_inv_tail in F.
      apply Forall_inv in F as F2. apply Forall_inv_tail in F.
      apply Forall_inv in F as F3. apply Forall_inv_tail in F.
      apply Forall_inv in F as F4. apply Forall_inv_tail in F. apply Forall_inv in F as F5.
      exists d1, d2, d3, d4, d5. rewrite app_nil_r in N.
      split; [exact F1|]. split; [exact F2|]. split; [exact F3|]. split; [exact F4|]. split; [exact F5|].
      split; [exact N|]. repeat split.
    - intros (d1 & d2 & d3 & d4 & d5 & F1 & F2 & F3 & F4 & F5 & N & -> & -> & -> & -> & ->).
      assert (E : match_ints udigit datafile_name_re name
        = Some [int_of udigit d1; int_of udigit d2; int_of udigit d3; int_of udigit d4; int_of udigit d5]).
      { apply match_ints_spec; [apply sep_datafile|apply nl_nondigit|].
        exists [d1; d2; d3; d4; d5]. split; [|reflexivity]. split; [repeat (constructor; [assumption|]); constructor|].
        eexists. split; [cbn [fill datafile_name_re option_map]; reflexivity|].
        rewrite app_nil_r. exact N. }
      now rewrite E.
  Qed.
End S.

Lemma dec_no_slash n c : 0 <= n -> In c (dec n) -> 48 <= c <= 57.
Proof.
  intros Hn Hc. destruct (dec_fuel_ok ascii_digit ascii_digits_ok (S (Z.to_nat n)) n) as (_ & B & _); [lia|].
  rewrite Forall_forall in B. now apply B.
Qed.

(** ** C08 *)

(** The path is the base directory followed by three components without a
    slash, from which the parsers recover the numbers. *)
Theorem C08_components_parse_back : forall udigit directory v1 v2 a2 L2 v3,
  digits_ok udigit -> legal v1 v2 a2 L2 v3 ->
  exists c1 c2 c3,
    SO5CG_filename directory v1 v2 a2 L2 v3
      = Ok (directory ++ c1 ++ chars "/" ++ c2 ++ chars "/" ++ c3)%list /\
    ~ In 47 c1 /\ ~ In 47 c2 /\ ~ In 47 c3 /\
    parse_dir1_name udigit c1 = Some v2 /\
    parse_dir2_name udigit c2 = Some (v1, v2, v3) /\
    parse_datafile_name udigit c3 = Some (v1, v2, a2, L2, v3).
Proof.
  intros udigit directory v1 v2 a2 L2 v3 Hd Hl. pose proof Hl as (H1 & H2 & H3 & H4 & H5).
  exists (chars "v2=" ++ dec v2)%list,
    (chars "SO5CG_" ++ dec v1 ++ chars "_" ++ dec v2 ++ chars "_" ++ dec v3)%list,
    (chars "SO5CG_" ++ dec v1 ++ chars "_" ++ dec v2 ++ chars "-" ++ dec a2 ++ chars "-"
     ++ dec L2 ++ chars "_" ++ dec v3)%list.
  split.
  { unfold SO5CG_filename. rewrite require_quintet_ok by assumption. cbn [bind]. f_equal.
    cbn [chars]. rewrite <- ?app_assoc. reflexivity. }
  assert (HN : forall n, 0 <= n -> ~ In 47 (dec n)).
  { intros n Hn Hi. apply dec_no_slash in Hi; lia. }
  assert (HC : forall s t, ~ In 47 s -> ~ In 47 t -> ~ In 47 (s ++ t)%list).
  { intros s t A B C. apply in_app_iff in C. tauto. }
  assert (HS1 : ~ In 47 (chars "v2=")) by (cbn; intuition discriminate).
  assert (HS2 : ~ In 47 (chars "SO5CG_")) by (cbn; intuition discriminate).
  assert (HS3 : ~ In 47 (chars "_")) by (cbn; intuition discriminate).
  assert (HS4 : ~ In 47 (chars "-")) by (cbn; intuition discriminate).
  split; [apply HC; auto|]. split; [repeat (apply HC; auto)|].
  split; [repeat (apply HC; [solve [auto with zarith|apply HN; lia]|]); apply HN; lia|].
  pose proof (dec_ok udigit Hd) as D.
  destruct (D v1 H1) as [A1 B1]. destruct (D v2 H2) as [A2 B2].
  destruct (D a2 ltac:(lia)) as [A3 B3]. destruct (D L2 H4) as [A4 B4]. destruct (D v3 H5) as [A5 B5].
  split; [|split].
  - apply dir1_spec; [assumption|]. exists (dec v2). auto.
  - apply dir2_spec; [assumption|]. exists (dec v1), (dec v2), (dec v3). cbn zeta. auto 10.
  - apply datafile_spec; [assumption|].
    exists (dec v1), (dec v2), (dec a2), (dec L2), (dec v3). cbn zeta.
    split; [assumption|]. split; [assumption|]. split; [assumption|]. split; [assumption|].
    split; [assumption|]. split; [now left|]. auto.
Qed.

Definition path_re : list item :=
  [Lit (chars "v2="); Digits; Lit (chars "/SO5CG_"); Digits; Lit (chars "_"); Digits; Lit (chars "_");
   Digits; Lit (chars "/SO5CG_"); Digits; Lit (chars "_"); Digits; Lit (chars "-"); Digits;
   Lit (chars "-"); Digits; Lit (chars "_"); Digits].

Theorem C08_injective : forall directory v1 v2 a2 L2 v3 v1' v2' a2' L2' v3' p,
  SO5CG_filename directory v1 v2 a2 L2 v3 = Ok p ->
  SO5CG_filename directory v1' v2' a2' L2' v3' = Ok p ->
  (v1, v2, a2, L2, v3) = (v1', v2', a2', L2', v3').
Proof.
  intros directory v1 v2 a2 L2 v3 v1' v2' a2' L2' v3' p E1 E2.
  assert (HL : forall a b c d e, SO5CG_filename directory a b c d e = Ok p -> legal a b c d e).
  { intros a b c d e E. unfold SO5CG_filename in E.
    unfold legal. destruct (Z_lt_dec a 0); [|destruct (Z_lt_dec b 0); [|destruct (Z_lt_dec c 1);
      [|destruct (Z_lt_dec d 0); [|destruct (Z_lt_dec e 0); [|lia]]]]];
    (rewrite require_quintet_bad in E; [discriminate|unfold legal; lia]). }
  pose proof (HL _ _ _ _ _ E1) as G1. pose proof (HL _ _ _ _ _ E2) as G2. clear HL.
  assert (HS : forall a b c d e, SO5CG_filename directory a b c d e = Ok p -> legal a b c d e ->
    forall q, p = (directory ++ q)%list ->
    spells ascii_digit path_re q [dec b; dec a; dec b; dec e; dec a; dec b; dec c; dec d; dec e]).
  { intros a b c d e E HG q Hq. unfold SO5CG_filename in E.
    rewrite require_quintet_ok in E by assumption. cbn [bind] in E. injection E as <-.
    apply app_inv_head in Hq. subst q. destruct HG as (K1 & K2 & K3 & K4 & K5).
    pose proof (dec_ok ascii_digit ascii_digits_ok) as D.
    split.
    - repeat (constructor; [apply D; lia|]). constructor.
    - eexists. split; [cbn [fill path_re option_map]; reflexivity|]. left.
      rewrite app_nil_r. reflexivity. }
  assert (exists q, p = (directory ++ q)%list) as (q & Hq).
  { unfold SO5CG_filename in E1. rewrite require_quintet_ok in E1 by assumption. cbn [bind] in E1.
    injection E1 as <-. eauto. }
  pose proof (spells_unique ascii_digit path_re q _ _
    ltac:(cbn; repeat split) eq_refl (HS _ _ _ _ _ E1 G1 q Hq) (HS _ _ _ _ _ E2 G2 q Hq)) as U.
  assert (DI : forall m n, 0 <= m -> 0 <= n -> dec m = dec n -> m = n).
  { intros m n Hm Hn E. destruct (dec_ok ascii_digit ascii_digits_ok m Hm) as [_ Em].
    destruct (dec_ok ascii_digit ascii_digits_ok n Hn) as [_ En]. rewrite E in Em. lia. }
  destruct G1 as (K1 & K2 & K3 & K4 & K5). destruct G2 as (J1 & J2 & J3 & J4 & J5).
  injection U as U1 U2 U3 U4 U5 U6 U7 U8 U9.
  apply DI in U1; [|lia|lia]. apply DI in U2; [|lia|lia]. apply DI in U4; [|lia|lia].
  apply DI in U7; [|lia|lia]. apply DI in U8; [|lia|lia]. congruence.
Qed.

Theorem C08_illegal_raises : forall directory v1 v2 a2 L2 v3,
  ~ (0 <= v1 /\ 0 <= v2 /\ 1 <= a2 /\ 0 <= L2 /\ 0 <= v3) ->
  SO5CG_filename directory v1 v2 a2 L2 v3 = Raise ValueError.
Proof.
  intros directory v1 v2 a2 L2 v3 H. unfold SO5CG_filename.
  now rewrite require_quintet_bad by exact H.
Qed.

Example C08_example :
  SO5CG_filename (chars "/data/") 12 3 1 40 5
  = Ok (chars "/data/v2=3/SO5CG_12_3_5/SO5CG_12_3-1-40_5").
Proof. reflexivity. Qed.

(** ** C09 *)

Theorem C09_datafile_names : forall udigit name v1 v2 a2 L2 v3, digits_ok udigit ->
  parse_datafile_name udigit name = Some (v1, v2, a2, L2, v3) <->
  exists d1 d2 d3 d4 d5, digit_string udigit d1 /\ digit_string udigit d2 /\
    digit_string udigit d3 /\ digit_string udigit d4 /\ digit_string udigit d5 /\
    (let t := (chars "SO5CG_" ++ d1 ++ chars "_" ++ d2 ++ chars "-" ++ d3 ++ chars "-" ++ d4
               ++ chars "_" ++ d5)%list in
     name = t \/ name = (t ++ [10])%list) /\
    v1 = int_of udigit d1 /\ v2 = int_of udigit d2 /\ a2 = int_of udigit d3 /\
    L2 = int_of udigit d4 /\ v3 = int_of udigit d5.
Proof. intros. now apply datafile_spec. Qed.

Theorem C09_dir2_names : forall udigit name v1 v2 v3, digits_ok udigit ->
  parse_dir2_name udigit name = Some (v1, v2, v3) <->
  exists d1 d2 d3, digit_string udigit d1 /\ digit_string udigit d2 /\ digit_string udigit d3 /\
    (let t := (chars "SO5CG_" ++ d1 ++ chars "_" ++ d2 ++ chars "_" ++ d3)%list in
     name = t \/ name = (t ++ [10])%list) /\
    v1 = int_of udigit d1 /\ v2 = int_of udigit d2 /\ v3 = int_of udigit d3.
Proof. intros. now apply dir2_spec. Qed.

Theorem C09_dir1_names : forall udigit name v2, digits_ok udigit ->
  parse_dir1_name udigit name = Some v2 <->
  exists d, digit_string udigit d /\
    (name = chars "v2=" ++ d \/ name = chars "v2=" ++ d ++ [10])%list /\ v2 = int_of udigit d.
Proof. intros. now apply dir1_spec. Qed.

(** Two digit strings have the same value exactly when they are the same
    digits after removing leading zeros. *)
Fixpoint drop_zeros (l : list Z) : list Z :=
  match l with 0 :: l' => drop_zeros l' | _ => l end.

Section Values.
  Let val (a : Z) (l : list Z) : Z := fold_left (fun a c => 10 * a + c) l a.

  Lemma val_lin l a : val a l = a * 10 ^ zlen l + val 0 l.
  Proof.
    unfold zlen. revert a. induction l as [|c l IH]; intros a; unfold val in *; cbn [fold_left length].
    - change (10 ^ Z.of_nat 0) with 1. lia.
    - rewrite IH, (IH (10 * 0 + c)). rewrite Nat2Z.inj_succ, Z.pow_succ_r by lia. ring.
  Qed.

  Lemma val_bound l : Forall (fun d => 0 <= d <= 9) l -> 0 <= val 0 l < 10 ^ zlen l.
  Proof.
    unfold zlen. induction l as [|c l IH]; intros F.
    - cbn. lia.
    - inversion F; subst. specialize (IH ltac:(assumption)).
      change (val 0 (c :: l)) with (val (10 * 0 + c) l). rewrite val_lin. unfold zlen.
      cbn [length]. rewrite Nat2Z.inj_succ, Z.pow_succ_r by lia.
      assert (0 < 10 ^ Z.of_nat (length l)) by (apply Z.pow_pos_nonneg; lia). nia.
  Qed.

  Lemma val_drop l : val 0 (drop_zeros l) = val 0 l.
  Proof. induction l as [|[| |] l IH]; try reflexivity. cbn [drop_zeros]. rewrite IH. reflexivity. Qed.

  Lemma drop_incl (P : Z -> Prop) l : Forall P l -> Forall P (drop_zeros l).
  Proof. induction l as [|[| |] l IH]; intros F; try exact F. cbn. inversion F; auto. Qed.

  Definition lead (l : list Z) : Prop := match l with [] => True | d :: _ => d <> 0 end.
  Lemma drop_lead l : lead (drop_zeros l).
  Proof. induction l as [|[| |] l IH]; cbn; auto; discriminate. Qed.

  Lemma same_length_inj l : forall l', length l = length l' ->
    Forall (fun d => 0 <= d <= 9) l -> Forall (fun d => 0 <= d <= 9) l' ->
    val 0 l = val 0 l' -> l = l'.
  Proof.
    induction l as [|c l IH]; intros [|c' l'] HL F F' E; try discriminate; [reflexivity|].
    inversion F; subst. inversion F'; subst. cbn in HL. injection HL as HL.
    change (val 0 (c :: l)) with (val (10 * 0 + c) l) in E.
    change (val 0 (c' :: l')) with (val (10 * 0 + c') l') in E.
    rewrite (val_lin l), (val_lin l') in E. unfold zlen in E. rewrite <- HL in E.
    pose proof (val_bound l ltac:(assumption)) as B. pose proof (val_bound l' ltac:(assumption)) as B'.
    unfold zlen in B, B'. rewrite <- HL in B'.
    assert (c = c') by nia. subst. f_equal. apply IH; auto. lia.
  Qed.

  Lemma lead_lower l : lead l -> l <> [] -> Forall (fun d => 0 <= d <= 9) l ->
    10 ^ (zlen l - 1) <= val 0 l.
  Proof.
    intros HL N F. destruct l as [|c l]; [congruence|]. cbn in HL. inversion F; subst.
    change (val 0 (c :: l)) with (val (10 * 0 + c) l). rewrite val_lin.
    pose proof (val_bound l ltac:(assumption)). unfold zlen in *. cbn [length].
    replace (Z.of_nat (S (length l)) - 1) with (Z.of_nat (length l)) by lia.
    assert (0 < 10 ^ Z.of_nat (length l)) by (apply Z.pow_pos_nonneg; lia). nia.
  Qed.

  Lemma drop_zeros_iff l l' : Forall (fun d => 0 <= d <= 9) l -> Forall (fun d => 0 <= d <= 9) l' ->
    val 0 l = val 0 l' <-> drop_zeros l = drop_zeros l'.
  Proof.
    intros F F'. split.
    - intros E. rewrite <- (val_drop l), <- (val_drop l') in E.
      apply drop_incl in F, F'. pose proof (drop_lead l) as D. pose proof (drop_lead l') as D'.
      set (m := drop_zeros l) in *. set (m' := drop_zeros l') in *. clearbody m m'.
      destruct m as [|c m].
      { destruct m' as [|c' m']; [reflexivity|exfalso].
        pose proof (lead_lower _ D' ltac:(discriminate) F') as B.
        assert (0 < 10 ^ (zlen (c' :: m') - 1)) by (apply Z.pow_pos_nonneg; [lia|unfold zlen; cbn [length]; lia]).
        unfold val in *. cbn [fold_left] in E. cbn [fold_left] in B. lia. }
      destruct m' as [|c' m'].
      { exfalso. pose proof (lead_lower _ D ltac:(discriminate) F) as B.
        assert (0 < 10 ^ (zlen (c :: m) - 1)) by (apply Z.pow_pos_nonneg; [lia|unfold zlen; cbn [length]; lia]).
        unfold val in *. cbn [fold_left] in E. cbn [fold_left] in B. lia. }
      apply same_length_inj; auto.
      pose proof (lead_lower _ D ltac:(discriminate) F) as B.
      pose proof (lead_lower _ D' ltac:(discriminate) F') as B'.
      pose proof (val_bound _ F) as U. pose proof (val_bound _ F') as U'.
      assert (HM : forall a b, 0 <= a -> 0 <= b -> 10 ^ a < 10 ^ b -> a < b).
      { intros a b Ha Hb. apply Z.pow_lt_mono_r_iff; lia. }
      assert (zlen (c :: m) - 1 < zlen (c' :: m')) by (apply HM; unfold zlen in *; cbn [length] in *; lia).
      assert (zlen (c' :: m') - 1 < zlen (c :: m)) by (apply HM; unfold zlen in *; cbn [length] in *; lia).
      unfold zlen in *. lia.
    - intros E. rewrite <- (val_drop l), <- (val_drop l'). now rewrite E.
  Qed.
End Values.

Theorem C09_equal_numbers : forall udigit d d', digits_ok udigit ->
  digit_string udigit d -> digit_string udigit d' ->
  int_of udigit d = int_of udigit d' <->
  drop_zeros (map (dval udigit) d) = drop_zeros (map (dval udigit) d').
Proof.
  intros udigit d d' Hd [_ F] [_ F'].
  assert (HF : forall s, Forall (fun c => is_digit udigit c = true) s ->
    Forall (fun x => 0 <= x <= 9) (map (dval udigit) s)).
  { intros s Fs. apply Forall_map. eapply Forall_impl; [|exact Fs]. intros c Hc.
    unfold is_digit, dval in *. destruct (udigit c) as [x|] eqn:E; [|discriminate].
    destruct Hd as (_ & H & _). now apply (H c). }
  rewrite <- drop_zeros_iff by auto.
  assert (HV : forall s a, fold_left (fun a c => 10 * a + dval udigit c) s a
    = fold_left (fun a c => 10 * a + c) (map (dval udigit) s) a).
  { induction s as [|c s IH]; intros a; cbn; [reflexivity|apply IH]. }
  unfold int_of. rewrite !HV. reflexivity.
Qed.

(** The dictionaries hold, under each label, the last listed entry whose name
    carries it. *)
Definition file_labelled (udigit : Z -> option Z) (q : quintet) (n : node) : bool :=
  match n with
  | NFile s => if opt_eq_dec quintet_eq_dec (parse_datafile_name udigit s) (Some q) then true else false
  | NDir _ _ => false
  end.
Definition dir2_labelled (udigit : Z -> option Z) (t : Z * Z * Z) (n : node) : bool :=
  match n with
  | NDir s _ => if opt_eq_dec triple_eq_dec (parse_dir2_name udigit s) (Some t) then true else false
  | NFile _ => false
  end.
Definition dir1_labelled (udigit : Z -> option Z) (v2 : Z) (n : node) : bool :=
  match n with
  | NDir s _ => if opt_eq_dec Z.eq_dec (parse_dir1_name udigit s) (Some v2) then true else false
  | NFile _ => false
  end.

Lemma last_find2 {K V} (dec : forall a b : K, {a = b} + {a <> b}) (sel p : node -> bool)
    (key : node -> K) (val : node -> V) k listing :
  (forall n, p n = true <-> sel n = true /\ key n = k) ->
  last_with dec (map (fun n => (key n, val n)) (filter sel listing)) k
  = option_map val (find p (rev listing)).
Proof.
  intros Hs. induction listing as [|n listing IH] using rev_ind; [reflexivity|].
  rewrite rev_app_distr, filter_app, map_app. cbn [rev app find filter].
  destruct (sel n) eqn:E.
  - cbn [map]. rewrite last_with_app. unfold last_with at 1. cbn.
    destruct (dec (key n) k) as [D|D].
    + replace (p n) with true by (symmetry; apply Hs; auto). reflexivity.
    + replace (p n) with false; [exact IH|]. symmetry.
      destruct (p n) eqn:Ep; [|reflexivity]. apply Hs in Ep. tauto.
  - cbn [map]. rewrite app_nil_r. replace (p n) with false; [exact IH|]. symmetry.
    destruct (p n) eqn:Ep; [|reflexivity]. apply Hs in Ep. destruct Ep; congruence.
Qed.

Lemma matches_ints udigit re s : matches udigit re s = true <-> match_ints udigit re s <> None.
Proof.
  unfold matches, match_ints. destruct (rmatch udigit re s); split; congruence.
Qed.

Theorem C09_dir2_dict_keeps_last : forall udigit listing q,
  dict_get (opt_eq_dec quintet_eq_dec) (dir2_dict udigit listing) (Some q)
  = find (file_labelled udigit q) (rev listing).
Proof.
  intros udigit listing q. unfold dir2_dict. rewrite dict_get_of.
  rewrite (last_find2 (opt_eq_dec quintet_eq_dec) (is_datafile_path udigit) (file_labelled udigit q)
            (fun n => parse_datafile_name udigit (node_name n)) (fun n => n)).
  - destruct (find _ _); reflexivity.
  - intros [s|s c]; cbn; [|intuition discriminate].
    destruct (opt_eq_dec quintet_eq_dec (parse_datafile_name udigit s) (Some q)) as [E|E].
    + split; [|reflexivity]. intros _. split; [|assumption]. apply matches_ints.
      unfold parse_datafile_name in E. destruct (match_ints udigit datafile_name_re s); congruence.
    + split; [discriminate|]. tauto.
Qed.

Theorem C09_dir1_dict_keeps_last : forall udigit listing t,
  dict_get (opt_eq_dec triple_eq_dec) (dir1_dict udigit listing) (Some t)
  = option_map (fun d => dir2_dict udigit (children d)) (find (dir2_labelled udigit t) (rev listing)).
Proof.
  intros udigit listing t. unfold dir1_dict. rewrite dict_get_of.
  apply (last_find2 (opt_eq_dec triple_eq_dec) (is_dir2_path udigit) (dir2_labelled udigit t)
            (fun n => parse_dir2_name udigit (node_name n))).
  intros [s|s c]; cbn; [intuition discriminate|].
  destruct (opt_eq_dec triple_eq_dec (parse_dir2_name udigit s) (Some t)) as [E|E].
  - split; [|reflexivity]. intros _. split; [|assumption]. apply matches_ints.
    unfold parse_dir2_name in E. destruct (match_ints udigit dir2_name_re s); congruence.
  - split; [discriminate|]. tauto.
Qed.

Theorem C09_base_dict_keeps_last : forall udigit listing v2,
  dict_get (opt_eq_dec Z.eq_dec) (base_dict udigit listing) (Some v2)
  = option_map (fun d => dir1_dict udigit (children d)) (find (dir1_labelled udigit v2) (rev listing)).
Proof.
  intros udigit listing v2. unfold base_dict. rewrite dict_get_of.
  apply (last_find2 (opt_eq_dec Z.eq_dec) (is_dir1_path udigit) (dir1_labelled udigit v2)
            (fun n => parse_dir1_name udigit (node_name n))).
  intros [s|s c]; cbn; [intuition discriminate|].
  destruct (opt_eq_dec Z.eq_dec (parse_dir1_name udigit s) (Some v2)) as [E|E].
  - split; [|reflexivity]. intros _. split; [|assumption]. apply matches_ints.
    unfold parse_dir1_name in E. destruct (match_ints udigit dir1_name_re s); congruence.
  - split; [discriminate|]. tauto.
Qed.

(** A listing in which an accepted directory is lost. *)
Theorem C09_all_directories_kept_refuted :
  exists listing d k, In d listing /\ dir1_labelled ascii_digit k d = true /\
    children d <> [] /\
    dict_get (opt_eq_dec Z.eq_dec) (base_dict ascii_digit listing) (Some k) = Some [].
Proof.
  exists [NDir (chars "v2=3") [NDir (chars "SO5CG_1_3_2") []]; NDir (chars "v2=03") []],
    (NDir (chars "v2=3") [NDir (chars "SO5CG_1_3_2") []]), 3.
  split; [now left|]. split; [reflexivity|]. split; [discriminate|]. reflexivity.
Qed.

(** ** Consistency of the two naming schemes (C08): in a database tree in which
    no label is carried twice, looking up the labels finds the file whose path
    is [SO5CG_filename]. *)
Lemma find_unique (p : node -> bool) l x : In x l -> p x = true ->
  (forall y, In y l -> p y = true -> y = x) -> find p (rev l) = Some x.
Proof.
  intros HI HP HU. destruct (find p (rev l)) as [y|] eqn:E.
  - apply find_some in E. destruct E as [E1 E2]. f_equal. apply HU; [now apply in_rev|assumption].
  - exfalso. apply in_rev in HI. now rewrite (find_none _ _ E x HI) in HP.
Qed.

Theorem C08_database_lookup : forall udigit directory v1 v2 a2 L2 v3 listing c1 l1 c2 l2 c3,
  digits_ok udigit -> legal v1 v2 a2 L2 v3 ->
  ~ In 47 c1 -> ~ In 47 c2 -> ~ In 47 c3 ->
  SO5CG_filename directory v1 v2 a2 L2 v3
    = Ok (directory ++ c1 ++ chars "/" ++ c2 ++ chars "/" ++ c3)%list ->
  In (NDir c1 l1) listing -> In (NDir c2 l2) l1 -> In (NFile c3) l2 ->
  (forall n, In n listing -> dir1_labelled udigit v2 n = true -> n = NDir c1 l1) ->
  (forall n, In n l1 -> dir2_labelled udigit (v1, v2, v3) n = true -> n = NDir c2 l2) ->
  (forall n, In n l2 -> file_labelled udigit (v1, v2, a2, L2, v3) n = true -> n = NFile c3) ->
  exists m1 m2,
    dict_get (opt_eq_dec Z.eq_dec) (base_dict udigit listing) (Some v2) = Some m1 /\
    dict_get (opt_eq_dec triple_eq_dec) m1 (Some (v1, v2, v3)) = Some m2 /\
    dict_get (opt_eq_dec quintet_eq_dec) m2 (Some (v1, v2, a2, L2, v3)) = Some (NFile c3).
Proof.
  intros udigit directory v1 v2 a2 L2 v3 listing c1 l1 c2 l2 c3 Hd Hl S1 S2 S3 E I1 I2 I3 U1 U2 U3.
  destruct (C08_components_parse_back udigit directory v1 v2 a2 L2 v3 Hd Hl)
    as (c1' & c2' & c3' & E' & T1 & T2 & T3 & P1 & P2 & P3).
  rewrite E in E'.
  apply (f_equal (fun r => match r with Ok x => x | Raise _ => [] end)) in E'. cbv beta iota in E'.
  apply app_inv_head in E'.
  assert (HSl : forall a b r s : text, ~ In 47 a -> ~ In 47 b ->
    (a ++ chars "/" ++ r = b ++ chars "/" ++ s)%list -> a = b /\ r = s).
  { induction a as [|x a IH]; intros b r s Ha Hb Hab; destruct b as [|y b]; cbn in Hab.
    - injection Hab as ->. auto.
    - injection Hab as <- _. exfalso. apply Hb. now left.
    - injection Hab as -> _. exfalso. apply Ha. now left.
    - injection Hab as -> Hab. destruct (IH b r s) as [-> ->]; auto.
      + intros K. apply Ha. now right.
      + intros K. apply Hb. now right. }
  apply HSl in E'; [|assumption|assumption]. destruct E' as [<- E'].
  apply HSl in E'; [|assumption|assumption]. destruct E' as [<- <-].
  exists (dir1_dict udigit l1), (dir2_dict udigit l2).
  split; [|split].
  - rewrite C09_base_dict_keeps_last, (find_unique _ _ (NDir c1 l1)); auto.
    unfold dir1_labelled. rewrite P1. destruct (opt_eq_dec Z.eq_dec (Some v2) (Some v2)); [reflexivity|congruence].
  - rewrite C09_dir1_dict_keeps_last, (find_unique _ _ (NDir c2 l2)); auto.
    unfold dir2_labelled. rewrite P2. destruct (opt_eq_dec triple_eq_dec (Some (v1, v2, v3)) (Some (v1, v2, v3))); [reflexivity|congruence].
  - rewrite C09_dir2_dict_keeps_last. apply find_unique; auto.
    unfold file_labelled. rewrite P3.
    match goal with |- (if ?t then _ else _) = _ => destruct t as [|N]; [reflexivity|exfalso; apply N; reflexivity] end.
Qed.

Example C09_example : parse_dir1_name ascii_digit (chars "v2=007") = Some 7 /\
  parse_datafile_name ascii_digit (chars "SO5CG_1_2-1-4_3") = Some (1, 2, 1, 4, 3) /\
  parse_dir2_name ascii_digit (chars "SO5CG_1_2_") = None /\
  parse_dir1_name ascii_digit (chars "v2=3" ++ [10])%list = Some 3.
Proof. repeat split. Qed.

(** A tree that meets the hypotheses of [C08_database_lookup]. *)
Example C08_lookup_example :
  let l2 := [NFile (chars "README"); NFile (chars "SO5CG_1_3-1-4_2")] in
  let l1 := [NDir (chars "SO5CG_1_3_2") l2; NDir (chars "SO5CG_1_3_4") []] in
  let listing := [NDir (chars "v2=1") []; NDir (chars "v2=3") l1] in
  forall n, In n listing -> dir1_labelled ascii_digit 3 n = true -> n = NDir (chars "v2=3") l1.
Proof. intros l2 l1 listing n [<-|[<-|[]]] H; [discriminate H|reflexivity]. Qed.

Print Assumptions C08_components_parse_back.
Print Assumptions C08_injective.
Print Assumptions C08_illegal_raises.
Print Assumptions C08_database_lookup.
Print Assumptions C09_datafile_names.
Print Assumptions C09_dir2_names.
Print Assumptions C09_dir1_names.
Print Assumptions C09_equal_numbers.
Print Assumptions C09_dir2_dict_keeps_last.
Print Assumptions C09_dir1_dict_keeps_last.
Print Assumptions C09_base_dict_keeps_last.
Print Assumptions C09_all_directories_kept_refuted.
