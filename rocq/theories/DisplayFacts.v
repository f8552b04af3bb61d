(** Facts about the display procedures. *)

From Coq Require Import String Reals.
From Coq Require Import Lia ZifyBool ZifyNat.
From Verif Require Import PyBase PyFacts Compat Text Format FormatFacts Operators Spherical SphericalFacts FullLabels Matrix FullSpace
  FullSpaceFacts Settings Display.
Open Scope Z_scope.
Ltac Zify.zify_post_hook ::= Z.div_mod_to_equations.

(** Programs that behave alike. *)
Definition peq {A} (m n : prog A) : Prop := forall s, m s = n s.

(** The settings are not changed. *)
Definition keeps {A} (m : prog A) : Prop := forall s, snd (fst (m s)) = s.

Lemma peq_refl {A} (m : prog A) : peq m m.
Proof. intros s. reflexivity. Qed.
Lemma peq_sym {A} (m n : prog A) : peq m n -> peq n m.
Proof. intros H s. symmetry. apply H. Qed.
Lemma peq_trans {A} (m n p : prog A) : peq m n -> peq n p -> peq m p.
Proof. intros H1 H2 s. now rewrite H1. Qed.

Lemma pbind_ext {A B} (m m' : prog A) (f f' : A -> prog B) : peq m m' -> (forall a, peq (f a) (f' a)) -> peq (pbind m f) (pbind m' f').
Proof. intros H1 H2 s. unfold pbind. rewrite H1. destruct (m' s) as [[[a|e] s1] o1]; [|reflexivity]. now rewrite H2. Qed.

Lemma pbind_assoc {A B C} (m : prog A) (f : A -> prog B) (g : B -> prog C) :
  peq (pbind (pbind m f) g) (pbind m (fun a => pbind (f a) g)).
Proof.
  intros s. unfold pbind. destruct (m s) as [[[a|e] s1] o1]; [|reflexivity]. destruct (f a s1) as [[[b|e] s2] o2]; [|reflexivity].
  destruct (g b s2) as [[r s3] o3]. now rewrite app_assoc.
Qed.

Lemma pbind_pret {A B} (a : A) (f : A -> prog B) : peq (pbind (pret a) f) (f a).
Proof. intros s. unfold pbind, pret. destruct (f a s) as [[r s2] o2]. reflexivity. Qed.

Lemma pbind_ok {A B} (a : A) (f : A -> prog B) : peq (pbind (praise (Ok a)) f) (f a).
Proof. exact (pbind_pret a f). Qed.

Lemma pbind_unit (m : prog unit) : peq (pbind m (fun _ => pret tt)) m.
Proof. intros s. unfold pbind, pret. destruct (m s) as [[[[]|e] s1] o1]; [now rewrite app_nil_r|reflexivity]. Qed.

Lemma pmap_app {A} (f : A -> prog unit) l1 l2 : peq (pmap f (l1 ++ l2)) (pbind (pmap f l1) (fun _ => pmap f l2)).
Proof.
  induction l1 as [|x l1 IH]; cbn [app pmap]; [exact (peq_sym _ _ (pbind_pret tt (fun _ => pmap f l2)))|].
  eapply peq_trans; [|apply peq_sym, pbind_assoc]. apply pbind_ext; [apply peq_refl|]. intros _. exact IH.
Qed.

Lemma pmap_flat {A B} (f : B -> prog unit) (e : A -> list B) (g : A -> prog unit) l :
  (forall x, In x l -> peq (g x) (pmap f (e x))) -> peq (pmap g l) (pmap f (flat_map e l)).
Proof.
  induction l as [|x l IH]; intros H; [apply peq_refl|]. cbn [pmap flat_map].
  eapply peq_trans; [|apply peq_sym, pmap_app]. apply pbind_ext; [apply H; now left|]. intros _. apply IH. intros y Hy. apply H. now right.
Qed.

Lemma pmap_ext {A} (f g : A -> prog unit) l : (forall x, In x l -> peq (f x) (g x)) -> peq (pmap f l) (pmap g l).
Proof.
  induction l as [|x l IH]; intros H; [apply peq_refl|]. cbn [pmap]. apply pbind_ext; [apply H; now left|].
  intros _. apply IH. intros y Hy. apply H. now right.
Qed.

(** Lines printed by a list of successful programs. *)
Lemma pmap_lines {A} (f : A -> prog unit) (o : A -> list text) s l :
  (forall x, In x l -> f x s = (Ok tt, s, o x)) -> pmap f l s = (Ok tt, s, flat_map o l).
Proof.
  induction l as [|x l IH]; intros H; [reflexivity|]. cbn [pmap flat_map]. unfold pbind. rewrite H by now left.
  rewrite IH; [reflexivity|]. intros y Hy. apply H. now right.
Qed.

Lemma keeps_pret {A} (a : A) : keeps (pret a).
Proof. intros s. reflexivity. Qed.
Lemma keeps_praise {A} (m : res A) : keeps (praise m).
Proof. intros s. reflexivity. Qed.
Lemma keeps_pget : keeps pget.
Proof. intros s. reflexivity. Qed.
Lemma keeps_print t : keeps (print t).
Proof. intros s. reflexivity. Qed.
Lemma keeps_bind {A B} (m : prog A) (f : A -> prog B) : keeps m -> (forall a, keeps (f a)) -> keeps (pbind m f).
Proof.
  intros H1 H2 s. unfold pbind. specialize (H1 s). destruct (m s) as [[[a|e] s1] o1]; cbn in H1 |- *; [|exact H1].
  subst s1. specialize (H2 a s). destruct (f a s) as [[r s2] o2]. exact H2.
Qed.
Lemma keeps_pmap {A} (f : A -> prog unit) l : (forall x, keeps (f x)) -> keeps (pmap f l).
Proof. intros H. induction l as [|x l IH]; [apply keeps_pret|]. cbn [pmap]. apply keeps_bind; [apply H|]. intros _. exact IH. Qed.

Ltac keep :=
  repeat first
    [ apply keeps_pret | apply keeps_praise | apply keeps_pget | apply keeps_print
    | apply keeps_bind; [|intros ?] | apply keeps_pmap; intros ?
    | match goal with
      | |- keeps (match ?x with _ => _ end) => destruct x
      end ].

Section Flt.
  Variable flt : text -> R -> text.

  Lemma keeps_Row s M f2 n fn sc L1 L2 n2 : keeps (Show_Mels_Row flt s M f2 n fn sc L1 L2 n2).
  Proof. unfold Show_Mels_Row. keep. Qed.
  Lemma keeps_rows_from s M f2 n fn sc L1 L2 l : keeps (rows_from flt s M f2 n fn sc L1 L2 l).
  Proof. induction l as [|x l IH]; cbn [rows_from]; [keep|]. apply keeps_bind; [apply keeps_Row|]. intros r. destruct (r <=? 0); [keep|exact IH]. Qed.
  Lemma keeps_Rows s M f2 n fn sc L2 : keeps (Show_Mels_Rows flt s M f2 n fn sc L2).
  Proof. apply keeps_pmap. intros. apply keeps_rows_from. Qed.
  Lemma keeps_mel s M f1 fn sc L1 L2 n1 n2 : keeps (show_mel flt s M f1 fn sc L1 L2 n1 n2).
  Proof. unfold show_mel. keep. Qed.
  Lemma keeps_steps s M f1 fn sc k L1 L2 n1 n2 Lm : keeps (mel_steps flt s M f1 fn sc k L1 L2 n1 n2 Lm).
  Proof. revert L1 L2. induction k as [|k IH]; intros; cbn [mel_steps]; [keep|]. apply keeps_bind; [apply keeps_mel|]. intros. apply IH. Qed.
  Lemma keeps_designator s M f1 f2 n fn sc d : keeps (show_designator flt s M f1 f2 n fn sc d).
  Proof.
    destruct d as [|a [|b r]]; cbn [show_designator].
    - apply keeps_pmap. intros. apply keeps_Rows.
    - destruct (a <? 0); [keep|apply keeps_Rows].
    - destruct (5 <? _); [keep|]. destruct (_ || _); [keep|].
      destruct r as [|c [|d [|e [|]]]]; try apply keeps_rows_from; try apply keeps_mel.
      + apply keeps_bind; [apply keeps_Row|]. keep.
      + unfold show_quintet. destruct (_ || _); [keep|]. destruct (0 <? e).
        * do 2 (apply keeps_bind; [keep|intros]). apply keeps_steps.
        * destruct (e <? 0); [apply keeps_bind; [keep|intros]|]; apply keeps_steps.
  Qed.
  Lemma keeps_Show_Mels M l n fn sc fm ds : keeps (Show_Mels flt M l n fn sc fm ds).
  Proof.
    unfold Show_Mels. destruct l; [keep|]. do 5 (apply keeps_bind; [keep|intros]). apply keeps_pmap. intros. apply keeps_designator.
  Qed.
  Lemma keeps_Show_Eigs ev Lv n lo hi : keeps (Show_Eigs flt ev Lv n lo hi).
  Proof. unfold Show_Eigs. keep. Qed.
  Lemma keeps_Show_Rats M l n : keeps (Show_Rats flt M l n).
  Proof. unfold Show_Rats. apply keeps_bind; [keep|intros]. apply keeps_Show_Mels. Qed.
  Lemma keeps_Show_Amps M l n : keeps (Show_Amps flt M l n).
  Proof. unfold Show_Amps. apply keeps_bind; [keep|intros]. apply keeps_Show_Mels. Qed.
End Flt.

Lemma mem_In x l : mem x l = true <-> In x l.
Proof. unfold mem. rewrite existsb_exists. split; [intros (y & H & E); replace x with y by lia; exact H|intros H; exists x; split; [exact H|lia]]. Qed.

Lemma mem_false x l : mem x l = false <-> ~ In x l.
Proof. rewrite <- mem_In. destruct (mem x l); split; congruence. Qed.
