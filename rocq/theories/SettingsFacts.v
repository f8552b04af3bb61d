(** Facts about the procedures of Settings.v. *)

From Coq Require Import String Reals Lra.
From Coq Require Import Lia ZifyBool ZifyNat.
From Verif Require Import PyBase Compat Text Format Operators Settings.
Open Scope Z_scope.
Ltac Zify.zify_post_hook ::= Z.div_mod_to_equations.

(** ** Invariants *)

Definition keeps (P : settings -> Prop) {A} (m : proc A) : Prop := forall s, P s -> P (snd (m s)).

Section Keeps.
  Variable P : settings -> Prop.

  Lemma keeps_ret A (a : A) : keeps P (sret a).
  Proof. intros s H. exact H. Qed.
  Lemma keeps_lift A (m : res A) : keeps P (lift m).
  Proof. intros s H. exact H. Qed.
  Lemma keeps_get : keeps P get.
  Proof. intros s H. exact H. Qed.
  Lemma keeps_bind A B (m : proc A) (f : A -> proc B) :
    keeps P m -> (forall a, keeps P (f a)) -> keeps P (sbind m f).
  Proof.
    intros Hm Hf s H. unfold sbind. specialize (Hm s H). destruct (m s) as [[a|e] s'] eqn:E; cbn [snd] in *.
    - apply Hf. exact Hm.
    - exact Hm.
  Qed.
  Lemma keeps_assign f : (forall s, P s -> P (f s)) -> keeps P (assign f).
  Proof. intros H s Hs. apply H, Hs. Qed.
  Lemma keeps_check_nonneg A x (k : unit -> proc A) :
    (0 <= x -> keeps P (k tt)) -> keeps P (sbind (lift (require_nonnegint x)) k).
  Proof.
    intros H s Hs. unfold sbind, lift, require_nonnegint, raise_if.
    destruct (x <? 0) eqn:E; cbn [snd]; [exact Hs|]. apply H; [lia|exact Hs].
  Qed.
  Lemma keeps_check_pos A x (k : unit -> proc A) :
    (0 < x -> keeps P (k tt)) -> keeps P (sbind (lift (require_posint x)) k).
  Proof.
    intros H s Hs. unfold sbind, lift, require_posint, require_nonnegint, raise_if, bind.
    destruct (x <? 0) eqn:E; cbn [snd]; [exact Hs|].
    destruct (x =? 0) eqn:E'; cbn [snd]; [exact Hs|]. apply H; [lia|exact Hs].
  Qed.
  Lemma keeps_when A (x : option A) f : (forall a, keeps P (f a)) -> keeps P (when x f).
  Proof. intros H. destruct x; [apply H|apply keeps_ret]. Qed.
  Lemma keeps_if A (b : bool) (m n : proc A) : keeps P m -> keeps P n -> keeps P (if b then m else n).
  Proof. destruct b; auto. Qed.
End Keeps.

Ltac keeps_step :=
  first
    [ apply keeps_check_nonneg; intros ?
    | apply keeps_check_pos; intros ?
    | apply keeps_bind; [|intros ?]
    | apply keeps_ret
    | apply keeps_lift
    | apply keeps_get
    | apply keeps_when; intros ?
    | apply keeps_if
    | apply keeps_assign; intros ? ? ].

(** The assignments do not touch the other settings. *)
Definition frame (s : settings) := (g_tran_format s, g_tran_fill s, g_nu_lap s).
