(** C97: radial operators as keys of what a process remembers.

    [RepRadialshfs_Prod] is decorated with [functools.cache] and its first argument is a
    tuple of [KTOp] and [SOp] objects, made afresh by every parse.  So whether a remembered
    matrix is found, and whether it is the right one, depends on [__eq__] and [__hash__] of
    these classes. *)
From Coq Require Import List ZArith Bool Lia Reals.
From Verif Require Import PyBase Compat RadialOps.
Import ListNotations.
Local Open Scope Z_scope.

(** radial_space.py:1365-1366 [KTOp.__eq__] and 1387-1388 [SOp.__eq__]. *)
Definition op_eq (self other : ktsop) : bool :=
  match self, other with
  | KTOp K T, KTOp K' T' => (K =? K') && (T =? T')
  | SOp s, SOp s' => s =? s'
  | _, _ => false
  end.

(** radial_space.py:1368-1369 [KTOp.__hash__] and 1390-1391 [SOp.__hash__].  [hash_int] and
    [hash_tuple] are the interpreter's: any functions. *)
Definition op_hash (hash_int : Z -> Z) (hash_tuple : list Z -> Z) (self : ktsop) : Z :=
  match self with
  | KTOp K T => hash_tuple [hash_int K; hash_int T]
  | SOp s => hash_int s
  end.

(** The interpreter's [==] of two tuples of operators (radial_space.py:1404 [KTSOps]). *)
Fixpoint ops_eq (a b : list ktsop) : bool :=
  match a, b with
  | [], [] => true
  | x :: a', y :: b' => op_eq x y && ops_eq a' b'
  | _, _ => false
  end.

(** The interpreter's hash of a tuple of operators. *)
Definition ops_hash (hash_int : Z -> Z) (hash_tuple : list Z -> Z) (a : list ktsop) : Z :=
  hash_tuple (map (op_hash hash_int hash_tuple) a).

(** What a caller does to the decorated function: calls it, or clears what it remembers. *)
Inductive event (A : Type) : Type :=
| Call (ops : list ktsop) (rest : A)
| Clear.
Arguments Call {A} ops rest.
Arguments Clear {A}.

Section Cached.
  Context {A V : Type}.
  (** [==] and [hash] of the other arguments: numbers and a tuple of integers. *)
  Context (rest_eq : A -> A -> bool) (rest_hash : A -> Z).
  Context (hash_int : Z -> Z) (hash_tuple : list Z -> Z).
  (** The function below the decorator, radial_space.py:1478-1504. *)
  Context (f : list ktsop -> A -> res V).

  Definition key_hash (ops : list ktsop) (rest : A) : Z :=
    hash_tuple [ops_hash hash_int hash_tuple ops; rest_hash rest].

  (** An entry of the dictionary: the hash, the key and the value. *)
  Definition entry : Type := Z * (list ktsop * A) * V.

  (** Lookup in a dictionary: the hashes are compared first, then the keys. *)
  Definition hit (ops : list ktsop) (rest : A) (e : entry) : bool :=
    let '(h, (ops', rest'), _) := e in
    (h =? key_hash ops rest) && (ops_eq ops' ops && rest_eq rest' rest).

  (** radial_space.py:1477 [@cache]: a call of the decorated function.  A call that raises is
      not remembered. *)
  Definition cached_call (ops : list ktsop) (rest : A) (d : list entry) : res V * list entry :=
    match find (hit ops rest) d with
    | Some (_, _, v) => (Ok v, d)
    | None =>
        match f ops rest with
        | Ok v => (Ok v, d ++ [(key_hash ops rest, (ops, rest), v)])
        | Raise x => (Raise x, d)
        end
    end.

  (** A history, from a given dictionary: the results of the calls, and the dictionary left.
      full_operators.py:257 is a [Clear]. *)
  Fixpoint session (es : list (event A)) (d : list entry) : list (res V) * list entry :=
    match es with
    | [] => ([], d)
    | Clear :: es' => session es' []
    | Call ops rest :: es' =>
        let '(r, d1) := cached_call ops rest d in
        let '(rs, d2) := session es' d1 in
        (r :: rs, d2)
    end.
End Cached.

(** Specification: what the calls of a history give when nothing is remembered. *)
Fixpoint afresh {A V : Type} (f : list ktsop -> A -> res V) (es : list (event A)) : list (res V) :=
  match es with
  | [] => []
  | Clear :: es' => afresh f es'
  | Call ops rest :: es' => f ops rest :: afresh f es'
  end.

(** ** Equality and hash *)

(** Two operators are equal exactly when they are of the same class with the same data:
    an [SOp] never equals a [KTOp]. *)
Theorem C97_equality : forall a b, op_eq a b = true <-> a = b.
Proof.
  intros [K T|s] [K' T'|s']; cbn [op_eq]; split; intros H; try discriminate H.
  - apply andb_true_iff in H. destruct H as [H1 H2]. apply Z.eqb_eq in H1, H2. subst. reflexivity.
  - injection H as -> ->. rewrite !Z.eqb_refl. reflexivity.
  - apply Z.eqb_eq in H. subst. reflexivity.
  - injection H as ->. apply Z.eqb_refl.
Qed.

(** The same for tuples of operators. *)
Theorem C97_tuples : forall a b, ops_eq a b = true <-> a = b.
Proof.
  induction a as [|x a IH]; intros [|y b]; cbn [ops_eq]; split; intros H; try discriminate H; try reflexivity.
  - apply andb_true_iff in H. destruct H as [H1 H2].
    apply C97_equality in H1. apply IH in H2. subst. reflexivity.
  - injection H as -> ->. rewrite (proj2 (C97_equality y y) eq_refl), (proj2 (IH b) eq_refl). reflexivity.
Qed.

(** Equal operators have equal hashes, whatever the interpreter's hash functions. *)
Theorem C97_hash : forall hash_int hash_tuple a b,
  op_eq a b = true -> op_hash hash_int hash_tuple a = op_hash hash_int hash_tuple b.
Proof. intros hi ht a b H. apply C97_equality in H. subst. reflexivity. Qed.

(** The converse is false: CPython gives -1 and -2 the same hash. *)
Theorem C97_hash_refuted : forall hash_int hash_tuple, hash_int (-1) = hash_int (-2) ->
  op_hash hash_int hash_tuple (KTOp (-1) 0) = op_hash hash_int hash_tuple (KTOp (-2) 0) /\
  op_eq (KTOp (-1) 0) (KTOp (-2) 0) = false.
Proof. intros hi ht H. cbn [op_hash]. rewrite H. split; reflexivity. Qed.

(** ** The dictionary *)

Section Facts.
  Context {A V : Type} (rest_eq : A -> A -> bool) (rest_hash : A -> Z).
  Context (hash_int : Z -> Z) (hash_tuple : list Z -> Z) (f : list ktsop -> A -> res V).
  Context (EQ : forall x y, rest_eq x y = true <-> x = y).
  Notation hit := (hit rest_eq rest_hash hash_int hash_tuple (V := V)).
  Notation call := (cached_call rest_eq rest_hash hash_int hash_tuple f).
  Notation run := (session rest_eq rest_hash hash_int hash_tuple f).
  Notation khash := (key_hash rest_hash hash_int hash_tuple).

  Definition sound (d : list (entry (A := A) (V := V))) : Prop :=
    NoDup (map (fun e => snd (fst e)) d) /\
    forall h ops rest v, In (h, (ops, rest), v) d -> h = khash ops rest /\ f ops rest = Ok v.

  Lemma hit_key ops rest h ops' rest' v :
    hit ops rest (h, (ops', rest'), v) = true <-> h = khash ops rest /\ ops' = ops /\ rest' = rest.
  Proof.
    unfold hit. rewrite !andb_true_iff, Z.eqb_eq, C97_tuples, EQ. tauto.
  Qed.

  Lemma call_sound ops rest d : sound d ->
    fst (call ops rest d) = f ops rest /\ sound (snd (call ops rest d)).
  Proof.
    intros [ND S]. unfold cached_call. destruct (find (hit ops rest) d) as [[[h [ops' rest']] v]|] eqn:F.
    - apply find_some in F. destruct F as [I H]. apply hit_key in H. destruct H as (_ & -> & ->).
      destruct (S _ _ _ _ I) as [_ E]. cbn [fst snd]. split; [symmetry; exact E|split; assumption].
    - destruct (f ops rest) as [v|x] eqn:E; cbn [fst snd]; (split; [reflexivity|]); [|split; assumption].
      split.
      + rewrite map_app. cbn [map fst snd].
        apply NoDup_Add with (a := (ops, rest)) (l := map (fun e => snd (fst e)) d).
        { pose proof (Add_app (ops, rest) (map (fun e : entry (A := A) (V := V) => snd (fst e)) d) []) as AD.
          rewrite app_nil_r in AD. exact AD. }
        split; [exact ND|]. intros I. apply in_map_iff in I. destruct I as [[[h k] w] [Ek I]].
        cbn [fst snd] in Ek. subst k. destruct (S _ _ _ _ I) as [Eh _].
        pose proof (find_none _ _ F _ I) as N.
        assert (T : hit ops rest (h, (ops, rest), w) = true) by (apply hit_key; auto).
        congruence.
      + intros h o r w I. apply in_app_or in I. destruct I as [I|[I|[]]]; [exact (S _ _ _ _ I)|].
        injection I as <- <- <- <-. split; [reflexivity|exact E].
  Qed.

  Lemma run_sound es : forall d, sound d -> fst (run es d) = afresh f es /\ sound (snd (run es d)).
  Proof.
    induction es as [|[ops rest|] es IH]; intros d S; cbn [session afresh].
    - split; [reflexivity|exact S].
    - destruct (call_sound ops rest d S) as [E S1]. destruct (call ops rest d) as [r d1].
      cbn [fst snd] in E, S1. destruct (IH d1 S1) as [E2 S2]. destruct (run es d1) as [rs d2].
      cbn [fst snd] in *. subst. split; [reflexivity|exact S2].
    - apply IH. split; [constructor|]. intros h o r v [].
  Qed.

  Lemma sound_nil : sound [].
  Proof. split; [constructor|]. intros h o r v []. Qed.
End Facts.

(** Whatever the hash functions, and however they collide, every call of a history gives
    what the undecorated function gives, exceptions included. *)
Theorem C97_transparent : forall (A V : Type) (rest_eq : A -> A -> bool) rest_hash hash_int hash_tuple
    (f : list ktsop -> A -> res V) es,
  (forall x y, rest_eq x y = true <-> x = y) ->
  fst (session rest_eq rest_hash hash_int hash_tuple f es []) = afresh f es.
Proof. intros A V re rh hi ht f es EQ. apply (run_sound re rh hi ht f EQ). apply sound_nil. Qed.

(** No key is ever stored twice: the dictionary has one entry for each distinct product. *)
Theorem C97_one_entry : forall (A V : Type) (rest_eq : A -> A -> bool) rest_hash hash_int hash_tuple
    (f : list ktsop -> A -> res V) es,
  (forall x y, rest_eq x y = true <-> x = y) ->
  NoDup (map (fun e => snd (fst e)) (snd (session rest_eq rest_hash hash_int hash_tuple f es []))).
Proof. intros A V re rh hi ht f es EQ. apply (run_sound re rh hi ht f EQ es []). apply sound_nil. Qed.

(** A call with operators made afresh, equal to those of an earlier call that succeeded, finds
    the remembered value: after any calls in between, short of a clear, it does not depend on
    the function any more and adds nothing to the dictionary. *)
Theorem C97_found : forall (A V : Type) (rest_eq : A -> A -> bool) rest_hash hash_int hash_tuple
    (f g : list ktsop -> A -> res V) es1 es2 ops ops' rest v d,
  (forall x y, rest_eq x y = true <-> x = y) ->
  f ops rest = Ok v -> ~ In Clear es2 -> ops_eq ops ops' = true ->
  d = snd (session rest_eq rest_hash hash_int hash_tuple f (es1 ++ Call ops rest :: es2) []) ->
  cached_call rest_eq rest_hash hash_int hash_tuple g ops' rest d = (Ok v, d).
Proof.
  intros A V re rh hi ht f g es1 es2 ops ops' rest v d EQ E NC EO D.
  apply C97_tuples in EO. subst ops'.
  assert (keep : forall es d0, ~ In Clear es -> incl d0 (snd (session re rh hi ht f es d0))).
  { induction es as [|[o r|] es IH]; intros d0 N; cbn [session].
    - apply incl_refl.
    - destruct (cached_call re rh hi ht f o r d0) as [x d1] eqn:C.
      assert (I1 : incl d0 d1).
      { unfold cached_call in C. destruct (find _ d0) as [[[h k] w]|].
        - injection C as _ <-. apply incl_refl.
        - destruct (f o r); injection C as _ <-; [apply incl_appl|]; apply incl_refl. }
      assert (N' : ~ In Clear es) by (intros I; apply N; right; exact I).
      pose proof (IH d1 N') as I2. destruct (session re rh hi ht f es d1) as [rs d2].
      cbn [snd] in *. exact (incl_tran I1 I2).
    - exfalso. apply N. left. reflexivity. }
  assert (split_run : forall es es' d0, snd (session re rh hi ht f (es ++ es') d0) =
      snd (session re rh hi ht f es' (snd (session re rh hi ht f es d0)))).
  { induction es as [|[o r|] es IH]; intros es' d0; cbn [session app]; [reflexivity| |apply IH].
    destruct (cached_call re rh hi ht f o r d0) as [x d1]. pose proof (IH es' d1) as I.
    destruct (session re rh hi ht f (es ++ es') d1) as [rs d2].
    destruct (session re rh hi ht f es d1) as [rs' d2']. cbn [snd] in *. exact I. }
  destruct (run_sound re rh hi ht f EQ (es1 ++ Call ops rest :: es2) [] (sound_nil rh hi ht f)) as [_ S].
  rewrite <- D in S.
  assert (I : exists h, In (h, (ops, rest), v) d).
  { rewrite split_run in D.
    pose proof (run_sound re rh hi ht f EQ es1 [] (sound_nil rh hi ht f)) as [_ S1].
    set (d0 := snd (session re rh hi ht f es1 [])) in *. cbn [session] in D.
    destruct (cached_call re rh hi ht f ops rest d0) as [x d1] eqn:C.
    assert (I1 : exists h, In (h, (ops, rest), v) d1).
    { unfold cached_call in C. destruct (find _ d0) as [[[h [o r]] w]|] eqn:F.
      - injection C as _ <-. apply find_some in F. destruct F as [I H].
        apply (hit_key re rh hi ht f EQ) in H. destruct H as (_ & -> & ->).
        destruct S1 as [_ S1]. destruct (S1 _ _ _ _ I) as [_ E1]. rewrite E in E1. injection E1 as <-.
        exists h. exact I.
      - rewrite E in C. injection C as _ <-. eexists. apply in_or_app. right. left. reflexivity. }
    destruct I1 as [h I1]. exists h. pose proof (keep es2 d1 NC) as K.
    destruct (session re rh hi ht f es2 d1) as [rs d2]. cbn [snd] in *. subst d2. exact (K _ I1). }
  destruct I as [h I]. destruct S as [_ S]. unfold cached_call.
  destruct (find (hit re rh hi ht ops rest) d) as [[[h' [o r]] w]|] eqn:F.
  - apply find_some in F. destruct F as [I' H]. apply (hit_key re rh hi ht f EQ) in H.
    destruct H as (_ & -> & ->). destruct (S _ _ _ _ I') as [_ E']. rewrite E in E'.
    injection E' as <-. reflexivity.
  - exfalso. pose proof (find_none _ _ F _ I) as N. destruct (S _ _ _ _ I) as [Eh _].
    assert (T : hit re rh hi ht ops rest (h, (ops, rest), v) = true) by (apply (hit_key re rh hi ht f EQ); auto).
    rewrite T in N. discriminate N.
Qed.

(** The hypotheses are met: with one integer as the other argument and hash functions that
    always collide, a history with two products, one asked for twice, an [SOp] and a [KTOp]
    with the same number, a failure and a clear. *)
Example C97_case :
  let f ops (n : Z) := if n <? 0 then Raise ValueError else Ok (ops, n) in
  let s := session Z.eqb (fun _ => 0) (fun _ => 0) (fun _ => 0) f
    [Call [KTOp 1 0] 5; Clear; Call [KTOp 0 0] 3; Call [SOp 0] 3; Call [KTOp 0 0] 3; Call [SOp 0] (-1)] [] in
  (forall x y, (x =? y) = true <-> x = y) /\
  fst s = [Ok ([KTOp 1 0], 5); Ok ([KTOp 0 0], 3); Ok ([SOp 0], 3); Ok ([KTOp 0 0], 3); Raise ValueError] /\
  length (snd s) = 2%nat.
Proof. cbv zeta. split; [exact Z.eqb_eq|]. vm_compute. split; reflexivity. Qed.

(** The decorated [RepRadialshfs_Prod] itself, with the arguments the model of RadialOps.v
    keeps: lambda and the shifts. *)
Example C97_product : forall rest_hash hash_int hash_tuple es,
  fst (session (fun x y : R * list Z =>
         if Req_EM_T (fst x) (fst y) then if list_eq_dec Z.eq_dec (snd x) (snd y) then true else false else false)
       rest_hash hash_int hash_tuple (fun ops x => RepRadialshfs_Prod ops (fst x) (snd x)) es []) =
  afresh (fun ops x => RepRadialshfs_Prod ops (fst x) (snd x)) es.
Proof.
  intros rh hi ht es. apply C97_transparent. intros [a l] [b m]. cbn [fst snd].
  destruct (Req_EM_T a b) as [->|N]; [destruct (list_eq_dec Z.eq_dec l m) as [->|N]|]; split; intros H;
    try reflexivity; try discriminate H; exfalso; apply N; congruence.
Qed.

Print Assumptions C97_equality.
Print Assumptions C97_tuples.
Print Assumptions C97_hash.
Print Assumptions C97_hash_refuted.
Print Assumptions C97_transparent.
Print Assumptions C97_one_entry.
Print Assumptions C97_found.
