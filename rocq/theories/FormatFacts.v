(** Facts about str.format: literal text, fields with a symbolic
    specification. *)

From Coq Require Import String Reals.
From Coq Require Import Lia ZifyBool ZifyNat.
From Verif Require Import PyBase PyFacts Text Format.
Open Scope Z_scope.
Ltac Zify.zify_post_hook ::= Z.div_mod_to_equations.

Definition no_brace (t : text) : Prop := Forall (fun c => c <> 123 /\ c <> 125) t.

Lemma field_end_app f r : no_brace f -> field_end (f ++ 125 :: r) = Ok (f, r).
Proof.
  intros H. induction H as [|c f [H1 H2] _ IH]; [reflexivity|]. cbn [app field_end].
  replace (c =? 125) with false by lia. replace (c =? 123) with false by lia. rewrite IH. reflexivity.
Qed.

Lemma field_end_len s f r : field_end s = Ok (f, r) -> (length r < length s)%nat.
Proof.
  revert f r. induction s as [|c s IH]; intros f r E; [discriminate|]. cbn [field_end] in E.
  destruct (c =? 125); [injection E as <- <-; cbn; lia|]. destruct (c =? 123); [discriminate|].
  destruct (field_end s) as [[f' r']|]; [|discriminate]. cbn [bind] in E. injection E as <- <-.
  specialize (IH f' r' eq_refl). cbn. lia.
Qed.

Lemma pieces_fuel_enough k k' s : (length s < k)%nat -> (length s < k')%nat -> pieces_fuel k s = pieces_fuel k' s.
Proof.
  revert k' s. induction k as [|k IH]; intros [|k'] s H H'; try lia. cbn [pieces_fuel].
  destruct s as [|c s]; [reflexivity|]. cbn [length] in H, H'.
  destruct (c =? 123).
  - destruct s as [|d s]; [reflexivity|]. cbn [length] in *. destruct (d =? 123).
    + rewrite (IH k' s) by lia. reflexivity.
    + destruct (field_end (d :: s)) as [[f r]|] eqn:E; [|reflexivity]. cbn [bind].
      apply field_end_len in E. cbn [length] in E. rewrite (IH k' r) by lia. reflexivity.
  - destruct (c =? 125).
    + destruct s as [|d s]; [reflexivity|]. cbn [length] in *. destruct (d =? 125); [|reflexivity]. rewrite (IH k' s) by lia. reflexivity.
    + rewrite (IH k' s) by lia. reflexivity.
Qed.

Lemma pieces_char c s : c <> 123 -> c <> 125 -> pieces (c :: s) = let* ps := pieces s in Ok (PLit c :: ps).
Proof.
  intros H1 H2. unfold pieces at 1. cbn [pieces_fuel]. replace (c =? 123) with false by lia. replace (c =? 125) with false by lia.
  unfold pieces. cbn [length]. reflexivity.
Qed.

Lemma pieces_field f s : no_brace f -> f <> [] -> pieces (123 :: f ++ 125 :: s) = let* ps := pieces s in Ok (PField f :: ps).
Proof.
  intros H N. unfold pieces at 1. destruct f as [|d f]; [congruence|]. inversion H as [|? ? [D1 D2] D3]; subst.
  cbn [pieces_fuel app]. replace (123 =? 123) with true by reflexivity. replace (d =? 123) with false by lia.
  change (d :: f ++ 125 :: s) with ((d :: f) ++ 125 :: s). rewrite field_end_app by exact H. cbn [bind].
  unfold pieces. erewrite pieces_fuel_enough; [reflexivity| |]; cbn [length]; rewrite ?app_length; cbn [length]; lia.
Qed.

Lemma pieces_lits t s : no_brace t -> pieces (t ++ s) = let* ps := pieces s in Ok (map PLit t ++ ps).
Proof.
  intros H. induction H as [|c t [H1 H2] _ IH]; [cbn [app map]; destruct (pieces s); reflexivity|].
  cbn [app map]. rewrite pieces_char by assumption. rewrite IH. destruct (pieces s); reflexivity.
Qed.

Lemma pieces_nil : pieces [] = Ok [].
Proof. reflexivity. Qed.

Lemma render_lits flt t ps auto args :
  render flt (map PLit t ++ ps) auto args = let* u := render flt ps auto args in Ok (t ++ u).
Proof.
  induction t as [|c t IH]; [cbn [app map]; destruct (render flt ps auto args); reflexivity|]. cbn [map app render]. rewrite IH.
  destruct (render flt ps auto args); reflexivity.
Qed.

(** A field ":spec" takes the next argument. *)
Lemma render_field flt spec ps auto args a t : 0 <= auto -> nth_error args (Z.to_nat auto) = Some a ->
  show_arg flt false spec a = Ok t ->
  render flt (PField (58 :: spec) :: ps) auto args = let* u := render flt ps (auto + 1) args in Ok (t ++ u).
Proof.
  intros H E S. cbn [render split_name]. replace ((58 =? 33) || (58 =? 58)) with true by reflexivity. cbn [split_spec].
  replace (58 =? 58) with true by reflexivity. cbn [bind]. replace (auto <? 0) with false by lia. cbn [bind]. rewrite E. cbn [bind].
  rewrite S. reflexivity.
Qed.

Lemma dec_digits n : 0 <= n -> dec n <> [] /\ Forall (fun c => 48 <= c <= 57) (dec n).
Proof. intros H. destruct (dec_fuel_ok ascii_digit ascii_digits_ok (S (Z.to_nat n)) n) as (A & B & _); [lia|]. split; assumption. Qed.

Lemma dec_int_nonneg n : 0 <= n -> dec_int n = dec n.
Proof. intros H. unfold dec_int. now replace (n <? 0) with false by lia. Qed.

Lemma digit_ascii c : 48 <= c <= 57 -> is_digit ascii_digit c = true.
Proof. intros H. unfold is_digit, ascii_digit. replace ((48 <=? c) && (c <=? 57)) with true by lia. reflexivity. Qed.

Lemma drop_digits_app t s : Forall (fun c => 48 <= c <= 57) t -> drop_digits (t ++ s) = drop_digits s.
Proof. intros H. induction H as [|c t H _ IH]; [reflexivity|]. cbn [app drop_digits]. now rewrite digit_ascii. Qed.

Lemma text_eqb_eq s t : text_eqb s t = true <-> s = t.
Proof.
  revert t. induction s as [|a s IH]; intros [|b t]; cbn [text_eqb]; try (split; congruence).
  rewrite andb_true_iff, IH. split; [intros [H ->]; f_equal; lia|intros H; injection H as -> ->; split; [lia|reflexivity]].
Qed.

Lemma float_spec_wp w p : Forall (fun c => 48 <= c <= 57) w -> 0 <= p -> float_spec (w ++ chars "." ++ dec_int p ++ chars "f") = true.
Proof.
  intros Hw Hp. rewrite dec_int_nonneg by exact Hp. destruct (dec_digits p Hp) as [N D]. unfold float_spec.
  rewrite drop_digits_app by exact Hw.
  replace (drop_digits (chars "." ++ dec p ++ chars "f")) with (46 :: dec p ++ [102]) by reflexivity.
  destruct (dec p) as [|c t] eqn:E; [congruence|]. cbn [app]. inversion D as [|? ? D1 D2]; subst.
  rewrite digit_ascii by exact D1. replace (c :: t ++ [102]) with ((c :: t) ++ [102]) by reflexivity. rewrite drop_digits_app by exact D. reflexivity.
Qed.

Lemma no_brace_digits t : Forall (fun c => 48 <= c <= 57) t -> no_brace t.
Proof. apply Forall_impl. intros. lia. Qed.

Lemma no_brace_app s t : no_brace s -> no_brace t -> no_brace (s ++ t).
Proof. intros. now apply Forall_app. Qed.

Lemma show_float flt w p x : Forall (fun c => 48 <= c <= 57) w -> 0 <= p ->
  show_arg flt false (w ++ chars "." ++ dec_int p ++ chars "f") (FFlt x) = Ok (flt (w ++ chars "." ++ dec_int p ++ chars "f") x).
Proof. intros Hw Hp. cbn [show_arg]. rewrite float_spec_wp by assumption. now rewrite orb_true_r. Qed.

Lemma show_int flt n : show_arg flt false (chars "d") (FInt n) = Ok (dec_int n).
Proof. reflexivity. Qed.
Lemma show_str flt t : show_arg flt false (chars "s") (FStr t) = Ok t.
Proof. reflexivity. Qed.

(** A format as a list of literal texts and of fields. *)
Inductive seg : Type := Lit (t : text) | Fld (f : text).
Definition layout (l : list seg) : text :=
  flat_map (fun g => match g with Lit t => t | Fld f => 123 :: f ++ [125] end) l.

Inductive fills (flt : text -> R -> text) : list seg -> list farg -> text -> Prop :=
| fills_nil : fills flt [] [] []
| fills_lit t l args u : no_brace t -> fills flt l args u -> fills flt (Lit t :: l) args (t ++ u)
| fills_plain a t l args u : show_arg flt false [] a = Ok t -> fills flt l args u -> fills flt (Fld [] :: l) (a :: args) (t ++ u)
| fills_spec spec a t l args u : no_brace spec -> show_arg flt false spec a = Ok t -> fills flt l args u ->
    fills flt (Fld (58 :: spec) :: l) (a :: args) (t ++ u).

Definition seg_pieces (g : seg) : list piece := match g with Lit t => map PLit t | Fld f => [PField f] end.

Lemma pieces_empty s : pieces (123 :: 125 :: s) = let* ps := pieces s in Ok (PField [] :: ps).
Proof.
  unfold pieces. rewrite (pieces_fuel_enough (S (length s)) (S (length (125 :: s))) s) by (cbn [length]; lia).
  reflexivity.
Qed.

Lemma layout_pieces flt l args u : fills flt l args u -> pieces (layout l) = Ok (flat_map seg_pieces l).
Proof.
  induction 1 as [|t l args u N _ IH|a t l args u S _ IH|spec a t l args u N S _ IH]; cbn [layout flat_map] in *.
  - reflexivity.
  - unfold layout in IH. rewrite pieces_lits by exact N. rewrite IH. reflexivity.
  - unfold layout in IH. cbn [app]. rewrite pieces_empty, IH. reflexivity.
  - unfold layout in IH. cbn [app]. rewrite <- app_assoc. cbn [app].
    change (123 :: 58 :: spec ++ 125 :: flat_map (fun g => match g with Lit t0 => t0 | Fld f => 123 :: f ++ [125] end) l)
      with (123 :: (58 :: spec) ++ 125 :: flat_map (fun g => match g with Lit t0 => t0 | Fld f => 123 :: f ++ [125] end) l).
    rewrite pieces_field; [rewrite IH; reflexivity| |discriminate]. constructor; [lia|exact N].
Qed.

Lemma render_plain flt ps auto args a t : 0 <= auto -> nth_error args (Z.to_nat auto) = Some a ->
  show_arg flt false [] a = Ok t ->
  render flt (PField [] :: ps) auto args = let* u := render flt ps (auto + 1) args in Ok (t ++ u).
Proof.
  intros H E S. cbn [render split_name split_spec bind]. replace (auto <? 0) with false by lia. cbn [bind]. rewrite E. cbn [bind].
  rewrite S. reflexivity.
Qed.

Lemma layout_render flt l args u : fills flt l args u -> forall pre,
  render flt (flat_map seg_pieces l) (zlen pre) (pre ++ args) = Ok u.
Proof.
  assert (Snoc : forall (pre : list farg) a, zlen pre + 1 = zlen (pre ++ [a])).
  { intros. unfold zlen. rewrite app_length. cbn [length]. lia. }
  assert (Nth : forall (pre : list farg) a args, nth_error (pre ++ a :: args) (Z.to_nat (zlen pre)) = Some a).
  { intros. unfold zlen. rewrite nth_error_app2 by lia. replace (Z.to_nat (Z.of_nat (length pre)) - length pre)%nat with 0%nat by lia. reflexivity. }
  induction 1 as [|t l args u N _ IH|a t l args u S _ IH|spec a t l args u N S _ IH]; intros pre; cbn [flat_map seg_pieces app].
  - reflexivity.
  - rewrite render_lits, IH. reflexivity.
  - erewrite render_plain; [|unfold zlen; lia|apply Nth|exact S]. rewrite Snoc with (a := a).
    replace (pre ++ a :: args) with ((pre ++ [a]) ++ args) by (now rewrite <- app_assoc). rewrite IH. reflexivity.
  - erewrite render_field; [|unfold zlen; lia|apply Nth|exact S]. rewrite Snoc with (a := a).
    replace (pre ++ a :: args) with ((pre ++ [a]) ++ args) by (now rewrite <- app_assoc). rewrite IH. reflexivity.
Qed.

Lemma format_fills flt l args u : fills flt l args u -> py_format flt (layout l) args = Ok u.
Proof.
  intros H. unfold py_format. rewrite (layout_pieces _ _ _ _ H). cbn [bind]. exact (layout_render _ _ _ _ H []).
Qed.
