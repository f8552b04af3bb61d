(** C83: arrays returned by the spherical and full-space functions. *)

From Coq Require Import Reals Lra.
From Coq Require Import Lia ZifyBool ZifyNat.
From Verif Require Import PyBase PyFacts Compat Matrix Spherical FullLabels RadialOps Operators FullOps FullOpsMemo DataMemo DataMemoFacts
  FullSharing FullSharingFacts.
Open Scope Z_scope.

(** ** Specification *)

Section Spec.
  Variable RP : list rsym -> R -> R -> Z -> Z -> Z -> Z -> res (mat R).
  Variable CG : Z -> Z -> Z -> Z -> Z -> Z -> Z -> Z -> Z -> res R.
  Variable lam : Z -> res Z.

  Definition answered (r : res (mat R)) : seen := match r with Ok M => Returned M | Raise e => Raised e end.

  (** The answer to a request in a process that has just been started, in terms
      of matrices that are values (Operators.v, FullOps.v). *)
  Definition alone (e : event) : seen :=
    match e with
    | CallXspace op an lb nu_min nu_max v_min v_max L L_max =>
        answered (fst (RepXspace RP CG op an lb nu_min nu_max v_min v_max L L_max (mkX lam [])))
    | CallWord w a => answered (fst (RepXspace_Prod RP CG w a (mkX lam [])))
    | CallTwin rad_ops sph_ops a => answered (RepXspace_Twin RP CG lam rad_ops sph_ops a)
    | CallProduct ys v_min v_max L_min L_max => answered (RepSO5r3_Prod CG ys v_min v_max L_min L_max)
    | CallRemembering (KHarmonic v al L v_min v_max L_min L_max) => answered (RepSO5_Y CG v al L v_min v_max L_min L_max)
    | CallRemembering (KProduct ys v_min v_max L_min L_max) => answered (RepSO5r3_Prod CG ys v_min v_max L_min L_max)
    | CallRemembering (KFull n a) => answered (xcompute RP CG lam n a)
    | Modify _ _ => Nothing
    end.

  (** A call that returns and makes the process forget the result of the
      remembering call [k]: [RepXspace] forgets all, [RepSO5r3_Prod] the
      matrices of the spherical harmonics. *)
  Definition forgets (c : event) (k : rkey) : bool :=
    match c, k with
    | CallXspace _ _ _ _ _ _ _ _ _, _ => true
    | CallProduct _ _ _ _ _, KHarmonic _ _ _ _ _ _ _ => true
    | _, _ => false
    end.
  (** This happened between events [i] and [j] of a session. *)
  Definition forgotten (es : list event) (os : list seen) (i j : nat) (k : rkey) : Prop :=
    exists l c M, (i < l < j)%nat /\ nth_error es l = Some c /\ nth_error os l = Some (Returned M) /\ forgets c k = true.

  (** At event [j], the array returned by event [i] can be changed safely: it
      was returned by a function that does not remember, or it has been
      forgotten since. *)
  Definition may_modify (es : list event) (os : list seen) (j i : nat) : Prop :=
    forall k, nth_error es i = Some (CallRemembering k) -> forgotten es os i j k.
  Definition careful (es : list event) (os : list seen) : Prop :=
    forall j i M, nth_error es j = Some (Modify i M) -> may_modify es os j i.

  (** The array returned by event [i]. *)
  Definition array_of (p : process) (i : nat) : option nat :=
    match nth_error (returned p) i with Some (Some a) => Some a | _ => None end.
End Spec.

(** ** Proofs *)

Section Proofs.
  Variable RP : list rsym -> R -> R -> Z -> Z -> Z -> Z -> res (mat R).
  Variable CG : Z -> Z -> Z -> Z -> Z -> Z -> Z -> Z -> Z -> res R.
  Variable lam : Z -> res Z.

  (** *** What stays in the tables *)

  Definition keeps {A} (f : am A) : Prop := forall m k a, table m k = Some a -> table (snd (f m)) k = Some a.
  Lemma k_ret {A} (a : A) : keeps (aret a).
  Proof. intros m k b H. exact H. Qed.
  Lemma k_lift {A} (a : res A) : keeps (alift a).
  Proof. intros m k b H. exact H. Qed.
  Lemma k_alloc M : keeps (alloc M).
  Proof. intros m k b H. exact H. Qed.
  Lemma k_read a : keeps (read a).
  Proof. intros m k b H. exact H. Qed.
  Lemma k_bind {A B} (f : am A) (g : A -> am B) : keeps f -> (forall a, keeps (g a)) -> keeps (abind f g).
  Proof.
    intros Hf Hg m k b H. unfold abind. specialize (Hf m k b H). destruct (f m) as [[a|e] m']; cbn [snd] in *; [now apply Hg|exact Hf].
  Qed.
  Lemma k_remember k f : keeps f -> keeps (remember k f).
  Proof.
    intros Hf m k' b H. unfold remember. destruct (table m k) as [a|] eqn:E; [exact H|]. specialize (Hf m k' b H).
    destruct (f m) as [[a|e] m']; cbn [snd table] in *; [|exact Hf]. destruct (rkey_eq_dec k' k) as [->|]; [congruence|exact Hf].
  Qed.
  Lemma k_if {A} (b : bool) (f g : am A) : keeps f -> keeps g -> keeps (if b then f else g).
  Proof. now destruct b. Qed.
  #[local] Create HintDb kdb.
  Ltac kk := repeat first [ solve [auto 1 with kdb nocore] | simple apply k_ret | simple apply k_lift | simple apply k_alloc | simple apply k_read | simple apply k_bind; [|intros ?] | simple apply k_remember | simple apply k_if
    | progress cbn zeta | match goal with |- keeps (match ?x with _ => _ end) => destruct x end ].
  Lemma k_Y v al L v0 v1 L0 L1 : keeps (RepSO5_Y_remA CG v al L v0 v1 L0 L1).
  Proof. unfold RepSO5_Y_remA. kk. Qed.
  #[local] Hint Resolve k_Y : kdb.
  Lemma k_ys y v0 v1 L0 L1 : keeps (ys_matA CG y v0 v1 L0 L1).
  Proof. unfold ys_matA. kk; apply k_Y. Qed.
  #[local] Hint Resolve k_ys : kdb.
  Lemma k_mul a b : keeps (mulA a b).
  Proof. unfold mulA. kk. Qed.
  #[local] Hint Resolve k_mul : kdb.
  Lemma k_wrk_loop ys v0 v1 L0 L1 : forall P, keeps (wrk_loopA CG ys v0 v1 L0 L1 P).
  Proof. induction ys as [|y ys IH]; intros P; cbn [wrk_loopA]; kk; try apply IH; try apply k_ys; unfold copyA, mulA; kk. Qed.
  #[local] Hint Resolve k_wrk_loop : kdb.
  Lemma k_wrk ys v0 v1 L0 L1 : keeps (RepSO5r3_Prod_wrkA CG ys v0 v1 L0 L1).
  Proof. unfold RepSO5r3_Prod_wrkA. destruct ys; [kk|]. apply k_bind; [apply k_wrk_loop|]. intros [P|]; kk. Qed.
  #[local] Hint Resolve k_wrk : kdb.
  Lemma k_Prod_rem ys v0 v1 L0 L1 : keeps (RepSO5r3_Prod_remA CG ys v0 v1 L0 L1).
  Proof. apply k_remember, k_wrk. Qed.
  #[local] Hint Resolve k_Prod_rem : kdb.
  Lemma k_Twin rad sph a : keeps (RepXspace_TwinA RP CG lam rad sph a).
  Proof. unfold RepXspace_TwinA, scaleA. kk; try apply k_Prod_rem. Qed.
  #[local] Hint Resolve k_Twin : kdb.
  Lemma k_call n a : keeps (callA RP CG lam n a).
  Proof. unfold callA. kk. Qed.
  #[local] Hint Resolve k_call : kdb.
  Lemma k_new run X : keeps (times_new run X).
  Proof. unfold times_new, mulA. kk. Qed.
  #[local] Hint Resolve k_new : kdb.
  Lemma k_rem run X : keeps (times_remembered run X).
  Proof. unfold times_remembered, mulA, copyA. kk. Qed.
  #[local] Hint Resolve k_rem : kdb.
  Lemma k_loop a ops : forall run nu sph, keeps (prod_loopA RP CG lam a ops run nu sph).
  Proof.
    induction ops as [|op ops IH]; intros run nu sph; cbn [prod_loopA]; [apply k_ret|].
    destruct op as [r| | | | | | |]; [destruct r|..]; kk; try apply IH; try apply k_Twin; try apply k_new; try apply k_rem; try apply k_call.
  Qed.
  #[local] Hint Resolve k_loop : kdb.
  Lemma k_word w a : keeps (RepXspace_ProdA RP CG lam w a).
  Proof. unfold RepXspace_ProdA. kk; try apply k_loop; try apply k_Twin; try apply k_new. Qed.
  #[local] Hint Resolve k_word : kdb.
  Lemma k_term t X a : keeps (RepXspace_TermA RP CG lam t X a).
  Proof. unfold RepXspace_TermA, scaleA. kk; try apply k_word. Qed.
  #[local] Hint Resolve k_term : kdb.
  Lemma k_terms ts X a : forall b, keeps (terms_loopA RP CG lam ts X a b).
  Proof. induction ts as [|t ts IH]; intros b; cbn [terms_loopA]; unfold addA; kk; try apply IH; try apply k_term. Qed.
  #[local] Hint Resolve k_terms : kdb.
  Lemma k_recall k : keeps (recallA RP CG lam k).
  Proof. destruct k; [apply k_Y|apply k_Prod_rem|apply k_call]. Qed.

  (** Functions that clear some tables when they return. *)
  Definition clears (p : rkey -> bool) (f : am nat) : Prop :=
    (forall m k a, table m k = Some a -> p k = false \/ (exists e, fst (f m) = Raise e) -> table (snd (f m)) k = Some a)
    /\ (forall m a k, fst (f m) = Ok a -> p k = true -> table (snd (f m)) k = None).
  Lemma clears_none f : keeps f -> clears (fun _ => false) f.
  Proof. intros H. split; [intros m k a E _; now apply H|discriminate]. Qed.
  Lemma clears_end p f : keeps f -> clears p (arr* r <- f ;; arr* _ <- cache_clear p ;; aret r).
  Proof.
    intros H. split.
    - intros m k a E D. specialize (H m k a E). unfold abind in *. destruct (f m) as [[b|e] m']; cbn in *; [|exact H].
      destruct D as [D|[e D]]; [|discriminate]. now rewrite D.
    - intros m a k E D. unfold abind in *. destruct (f m) as [[b|e] m']; cbn in *; [|discriminate]. now rewrite D.
  Qed.
  Lemma clears_Xspace op an lb n0 n1 v0 v1 L Lm : clears any_key (RepXspaceA RP CG lam op an lb n0 n1 v0 v1 L Lm).
  Proof.
    unfold RepXspaceA. cbn zeta. set (a := mkXA _ _ _ _ _ _ _ _). set (B := match op with [] => _ | _ => _ end).
    assert (K : keeps B) by (unfold B; kk; try apply k_term; apply k_terms).
    assert (C := clears_end any_key B K). destruct C as [C1 C2]. destruct (xa_check a) as [[]|e] eqn:E.
    - split; [exact C1|exact C2].
    - split; [intros m k b H _; exact H|discriminate].
  Qed.

  (** *** One call *)

  Definition code_of (e : event) : option (am nat) :=
    match e with
    | CallXspace op an lb n0 n1 v0 v1 L Lm => Some (RepXspaceA RP CG lam op an lb n0 n1 v0 v1 L Lm)
    | CallWord w a => Some (RepXspace_ProdA RP CG lam w a)
    | CallTwin rad sph a => Some (RepXspace_TwinA RP CG lam rad sph a)
    | CallProduct ys v0 v1 L0 L1 => Some (RepSO5r3_ProdA CG ys v0 v1 L0 L1)
    | CallRemembering k => Some (recallA RP CG lam k)
    | Modify _ _ => None
    end.
  Lemma step_code e f p : code_of e = Some f -> step RP CG lam e p = returning f p.
  Proof. destruct e; cbn [code_of step]; intros E; try discriminate; now injection E as <-. Qed.
  Lemma code_clears e f : code_of e = Some f -> clears (forgets e) f.
  Proof.
    assert (X : forall p q g, (forall k, p k = q k) -> clears p g -> clears q g).
    { intros p q g E [C1 C2]. split; [intros m k a; rewrite <- E; apply C1|intros m a k; rewrite <- E; apply C2]. }
    destruct e; cbn [code_of]; intros E; try discriminate; injection E as <-.
    - apply (X any_key); [now intros []|apply clears_Xspace].
    - apply (X (fun _ => false)); [now intros []|apply clears_none, k_word].
    - apply (X (fun _ => false)); [now intros []|apply clears_none, k_Twin].
    - apply (X harmonic_key); [now intros []|apply clears_end, k_wrk].
    - apply (X (fun _ => false)); [now intros []|apply clears_none, k_recall].
  Qed.

  Definition value (e : event) : res (mat R) :=
    match e with
    | CallXspace op an lb n0 n1 v0 v1 L Lm => answer CG (RepXspaceC RP lam op an lb n0 n1 v0 v1 L Lm)
    | CallWord w a => answer CG (RepXspace_ProdC RP lam w a)
    | CallTwin rad sph a => RepXspace_Twin RP CG lam rad sph a
    | CallProduct ys v0 v1 L0 L1 => RepSO5r3_Prod CG ys v0 v1 L0 L1
    | CallRemembering k => pure RP CG lam k
    | Modify _ _ => Raise ValueError
    end.
  Lemma value_alone e f : code_of e = Some f -> alone RP CG lam e = answered (value e).
  Proof.
    destruct e; cbn [code_of alone value]; intros E; try discriminate; try reflexivity.
    - now rewrite answer_Xspace.
    - now rewrite answer_word.
    - now destruct k.
  Qed.

  (** The array that a call returns: a new one that nobody knows, or the one
      remembered. *)
  Definition gives (e : event) (m m' : amem) (a : nat) : Prop :=
    match e with CallRemembering k => table m' k = Some a | _ => mine m m' a end.
  Lemma code_runs e f m : code_of e = Some f -> wf m -> runs RP CG lam (inv RP CG lam m) f m (gives e m) (value e) holds.
  Proof.
    destruct e; cbn [code_of value gives]; intros E W; try discriminate; injection E as <-.
    - now apply new_Xspace.
    - now apply new_word.
    - now apply new_Twin.
    - now apply new_Prod.
    - destruct k; cbn [recallA pure]; [now apply runs_Y_rem|now apply runs_Prod_rem|now apply runs_call].
  Qed.
  Lemma recall_hit k m a : table m k = Some a -> recallA RP CG lam k m = (Ok a, m).
  Proof. intros E. destruct k; cbn [recallA]; unfold RepSO5_Y_remA, RepSO5r3_Prod_remA, callA, remember; now rewrite E. Qed.

  (** *** Sessions *)

  Lemma session_snoc es e p : session RP CG lam (es ++ [e]) p =
    let '(os, p1) := session RP CG lam es p in let '(o, p2) := step RP CG lam e p1 in (os ++ [o], p2).
  Proof.
    revert p. induction es as [|e' es IH]; intros p; cbn [app session].
    - now destruct (step RP CG lam e p) as [o p2].
    - destruct (step RP CG lam e' p) as [o p1]. rewrite IH. destruct (session RP CG lam es p1) as [os p2].
      now destruct (step RP CG lam e p2) as [o2 p3].
  Qed.

  Lemma put_length {A} (l : list A) n x : length (put l n x) = length l.
  Proof. revert n. induction l as [|y l IH]; intros [|n]; cbn; auto. Qed.
  Lemma nth_put {A} (l : list A) n x d k : (n < length l)%nat -> nth k (put l n x) d = if Nat.eqb k n then x else nth k l d.
  Proof.
    revert n k. induction l as [|y l IH]; intros n k H; cbn in H; [lia|]. destruct n as [|n], k as [|k]; cbn; auto. apply IH. lia.
  Qed.

  (** The state of event [i]'s array. *)
  Definition holder (es : list event) (os : list seen) (n : nat) (m : amem) (i a : nat) : Prop :=
    (a < size m)%nat /\ exists e f, nth_error es i = Some e /\ code_of e = Some f /\
    match e with
    | CallRemembering k =>
        (forall k', table m k' = Some a -> k' = k) /\
        (forgotten es os i n k -> table m k <> Some a) /\ (~ forgotten es os i n k -> table m k = Some a)
    | _ => forall k, table m k <> Some a
    end.
  Record good (es : list event) (os : list seen) (p : process) : Prop := mkGood {
    g_es : length es = length (returned p);
    g_os : length os = length (returned p);
    g_wf : wf (memory p);
    g_hold : forall i a, nth_error (returned p) i = Some (Some a) -> holder es os (length es) (memory p) i a;
    g_same : forall i j a b, (i < j)%nat -> nth_error (returned p) i = Some (Some a) -> nth_error (returned p) j = Some (Some b) ->
      a = b <-> exists k, nth_error es i = Some (CallRemembering k) /\ nth_error es j = Some (CallRemembering k) /\ ~ forgotten es os i j k;
    g_seen : forall i e f, nth_error es i = Some e -> code_of e = Some f ->
      (exists a M, nth_error (returned p) i = Some (Some a) /\ nth_error os i = Some (Returned M)) \/
      (exists x, nth_error (returned p) i = Some None /\ nth_error os i = Some (Raised x)) }.

  Lemma nth_snoc {A} (l : list A) x i : nth_error (l ++ [x]) i = if Nat.eqb i (length l) then Some x else nth_error l i.
  Proof.
    destruct (Nat.eqb_spec i (length l)) as [->|N]; [rewrite nth_error_app2, Nat.sub_diag by lia; reflexivity|].
    destruct (Nat.lt_ge_cases i (length l)); [now apply nth_error_app1|].
    rewrite nth_error_app2 by lia. assert (nth_error l i = None) as -> by (apply nth_error_None; lia).
    destruct (i - length l)%nat as [|[|q]] eqn:D; [lia| |]; reflexivity.
  Qed.
  Lemma nth_lt {A} (l : list A) i x : nth_error l i = Some x -> (i < length l)%nat.
  Proof. intros H. apply nth_error_Some. congruence. Qed.

  Lemma forgotten_snoc es os e o i j k : length es = length os -> (j <= length es)%nat ->
    forgotten (es ++ [e]) (os ++ [o]) i j k <-> forgotten es os i j k.
  Proof.
    intros L J. split; intros (l & c & M & B & E1 & E2 & F); exists l, c, M; (split; [exact B|]);
      rewrite ?nth_snoc in *; rewrite <- ?L in *; destruct (Nat.eqb_spec l (length es)) as [->|]; try lia; auto.
  Qed.
  Lemma forgotten_last es os e o i k : length es = length os -> (i < length es)%nat ->
    forgotten (es ++ [e]) (os ++ [o]) i (S (length es)) k <-> forgotten es os i (length es) k \/ ((exists M, o = Returned M) /\ forgets e k = true).
  Proof.
    intros L I. split.
    - intros (l & c & M & B & E1 & E2 & F). rewrite nth_snoc in E1. rewrite nth_snoc in E2. rewrite <- L in E2.
      destruct (Nat.eqb_spec l (length es)) as [->|].
      + right. injection E1 as <-. injection E2 as ->. split; [now exists M|exact F].
      + left. exists l, c, M. split; [lia|auto].
    - intros [(l & c & M & B & E1 & E2 & F)|[[M ->] F]].
      + exists l, c, M. split; [lia|]. rewrite !nth_snoc, <- L. destruct (Nat.eqb_spec l (length es)); [lia|auto].
      + exists (length es), e, M. split; [lia|]. rewrite !nth_snoc, <- L, Nat.eqb_refl. auto.
  Qed.

  Lemma good_snoc es os p e o m' r : good es os p -> wf m' -> (size (memory p) <= size m')%nat ->
    (forall k a, table m' k = Some a -> table (memory p) k = Some a \/ (size (memory p) <= a)%nat) ->
    (forall k a, table (memory p) k = Some a -> forgets e k = false \/ (forall M, o <> Returned M) -> table m' k = Some a) ->
    (forall k M, o = Returned M -> forgets e k = true -> table m' k = None) ->
    (forall a, r = Some a -> (a < size m')%nat /\ (exists f, code_of e = Some f) /\ gives e (memory p) m' a /\
       (forall k b, e = CallRemembering k -> table (memory p) k = Some b -> a = b)) ->
    (code_of e <> None -> (exists a M, r = Some a /\ o = Returned M) \/ (exists x, r = None /\ o = Raised x)) ->
    good (es ++ [e]) (os ++ [o]) (mkP m' (returned p ++ [r])).
  Proof.
    intros [LE LO W H S SE] W' SZ TG TP TC TN TS. assert (LL : length es = length os) by congruence.
    set (m := memory p) in *. set (n := length es) in *.
    assert (IN : forall i a, nth_error (returned p) i = Some (Some a) -> (i < n)%nat).
    { intros i a E. apply nth_lt in E. lia. }
    constructor; cbn [returned memory].
    - rewrite !app_length. cbn. lia.
    - rewrite !app_length. cbn. lia.
    - exact W'.
    - intros i a E. rewrite nth_snoc, <- LE in E. rewrite app_length. cbn [length]. rewrite Nat.add_1_r. fold n. fold n in E.
      destruct (Nat.eqb_spec i n) as [->|N].
      + injection E as ->. destruct (TN a eq_refl) as (B & [f F] & G & _). split; [exact B|]. exists e, f.
        rewrite nth_snoc. fold n. rewrite Nat.eqb_refl. split; [reflexivity|]. split; [exact F|].
        destruct e; cbn [gives] in G; try apply (proj2 G).
        split; [|split].
        * intros k' E'. symmetry. exact (proj2 W' k k' a G E').
        * intros (l & c & M & B' & _). lia.
        * intros _. exact G.
      + pose proof (IN _ _ E) as Li. destruct (H i a E) as (B & ei & fi & Ei & Fi & T). split; [lia|]. exists ei, fi.
        rewrite nth_snoc. fold n. destruct (Nat.eqb_spec i n); [lia|]. split; [exact Ei|]. split; [exact Fi|].
        destruct ei; try (intros k' E'; destruct (TG _ _ E') as [E2|E2]; [now apply T in E2|fold m in B; lia]).
        destruct T as (T1 & T2 & T3). fold m in T1, T2, T3, B.
        split; [|split].
        * intros k' E'. destruct (TG _ _ E') as [E2|E2]; [now apply T1|lia].
        * intros FO. apply forgotten_last in FO; [|exact LL|lia]. destruct FO as [FO|[[M ->] FO]].
          -- intros E'. destruct (TG _ _ E') as [E2|E2]; [now apply T2|lia].
          -- rewrite (TC k M eq_refl FO). discriminate.
        * intros NF. apply TP.
          -- apply T3. intros FO. apply NF. apply forgotten_last; [exact LL|lia|now left].
          -- destruct (forgets e k) eqn:FE; [right|now left]. intros M ->. apply NF. apply forgotten_last; [exact LL|lia|]. right. split; [now exists M|exact FE].
    - intros i j a b IJ Ea Eb. rewrite nth_snoc, <- LE in Ea. rewrite nth_snoc, <- LE in Eb. fold n in Ea, Eb.
      assert (Ln : length (es ++ [e]) = Datatypes.S n) by (rewrite app_length; cbn; fold n; lia).
      destruct (Nat.eqb_spec j n) as [->|Nj].
      + destruct (Nat.eqb_spec i n); [lia|]. injection Eb as ->. pose proof (IN _ _ Ea) as Li.
        destruct (H i a Ea) as (B & ei & fi & Ei & Fi & T). fold m in B, T.
        destruct (TN b eq_refl) as (B' & [f F] & G & Hit). rewrite !nth_snoc. fold n. rewrite Nat.eqb_refl. destruct (Nat.eqb_spec i n); [lia|]. rewrite Ei.
        assert (FS : forall k, forgotten (es ++ [e]) (os ++ [o]) i n k <-> forgotten es os i n k) by (intros k; apply forgotten_snoc; [exact LL|fold n; lia]).
        split.
        * intros <-. destruct e; cbn [gives] in G; try (apply proj1, proj1 in G; lia).
          destruct (TG _ _ G) as [E2|E2]; [|lia]. fold m in E2.
          destruct ei; try (now apply T in E2). destruct T as (T1 & T2 & T3). rewrite <- (T1 k E2) in *. exists k.
          split; [reflexivity|]. split; [reflexivity|]. rewrite FS. intros FO. exact (T2 FO E2).
        * intros (k & X1 & X2 & NF). injection X1 as ->. injection X2 as ->. rewrite FS in NF. destruct T as (T1 & T2 & T3).
          symmetry. apply (Hit k); [reflexivity|]. apply T3. exact NF.
      + pose proof (IN _ _ Eb) as Lj. destruct (Nat.eqb_spec i n); [lia|]. rewrite (S i j a b IJ Ea Eb). rewrite !nth_snoc. fold n.
        destruct (Nat.eqb_spec i n), (Nat.eqb_spec j n); try lia.
        split; intros (k & X1 & X2 & X3); exists k; (split; [exact X1|]); (split; [exact X2|]); rewrite ?forgotten_snoc in *; auto; fold n; lia.
    - intros i ei fi Ei Fi. rewrite nth_snoc in Ei. rewrite !nth_snoc, <- LL, <- LE. fold n in Ei |- *. destruct (Nat.eqb_spec i n) as [->|N].
      + injection Ei as <-. destruct (TS ltac:(congruence)) as [(a & M & -> & ->)|(x & -> & ->)]; [left; eauto|right; eauto].
      + exact (SE i ei fi Ei Fi).
  Qed.

  Lemma code_None e : code_of e = None -> exists i M, e = Modify i M.
  Proof. destruct e; try discriminate. eauto. Qed.

  Lemma good_step es os p e : good es os p -> let '(o, p') := step RP CG lam e p in good (es ++ [e]) (os ++ [o]) p'.
  Proof.
    intros G. destruct (code_of e) as [f|] eqn:C.
    - rewrite (step_code e f p C). pose proof (code_runs e f (memory p) C (g_wf _ _ _ G)) as (r & m' & E & W' & GR & HQ & _).
      destruct (code_clears e f C) as [K1 K2]. specialize (K1 (memory p)). specialize (K2 (memory p)). unfold returning. rewrite E in K1, K2 |- *. cbn [fst snd] in K1, K2.
      pose proof (grow_size _ _ GR) as SZ.
      destruct r as [a|x].
      + apply good_snoc; auto.
        * apply GR.
        * intros k b Ek [D|D]; [apply K1; auto|]. now destruct (D (content m' a)).
        * intros k M _ D. now apply (K2 a).
        * intros b Eb. injection Eb as <-. specialize (HQ a eq_refl). split; [|split; [now exists f|split; [exact HQ|]]].
          -- destruct e; cbn [gives] in HQ; try apply HQ. now apply (proj1 W' k).
          -- intros k b -> Ek. cbn [code_of] in C. injection C as <-. rewrite (recall_hit k _ b Ek) in E. congruence.
        * intros _. left. eauto.
      + apply good_snoc; auto.
        * apply GR.
        * intros k b Ek _. apply K1; [exact Ek|]. right. now exists x.
        * intros; discriminate.
        * intros; discriminate.
        * intros _. right. eauto.
    - destruct (code_None e C) as (i & M & ->). cbn [step].
      set (m' := match nth_error (returned p) i with Some (Some a) => _ | _ => _ end).
      assert (T : table m' = table (memory p)) by (unfold m'; destruct (nth_error (returned p) i) as [[a|]|]; reflexivity).
      assert (Z : size m' = size (memory p)).
      { unfold m', size. destruct (nth_error (returned p) i) as [[a|]|]; cbn [arrays]; auto. apply put_length. }
      apply good_snoc; auto.
      + destruct (g_wf _ _ _ G) as [W1 W2]. split; [intros k a; rewrite T, Z; apply W1|rewrite T; exact W2].
      + lia.
      + intros k a. rewrite T. auto.
      + intros k a E _. now rewrite T.
      + intros k M' E. discriminate.
      + intros a E. discriminate.
      + intros X. now destruct X.
  Qed.

  Lemma good_started : good [] [] started.
  Proof.
    constructor; cbn; auto.
    - split; [discriminate|discriminate].
    - intros [|i] a E; discriminate.
    - intros [|i] j a b _ E; discriminate.
    - intros [|i] e f E; discriminate.
  Qed.
  Lemma good_session es : let '(os, p) := session RP CG lam es started in good es os p.
  Proof.
    induction es as [|e es IH] using rev_ind; [exact good_started|]. rewrite session_snoc.
    destruct (session RP CG lam es started) as [os p]. pose proof (good_step es os p e IH) as H.
    now destruct (step RP CG lam e p) as [o p'].
  Qed.

  (** *** Careful sessions *)

  Lemma careful_snoc es os e o : length es = length os -> careful (es ++ [e]) (os ++ [o]) -> careful es os.
  Proof.
    intros L C j i M E k Ek. pose proof (nth_lt _ _ _ E) as Lj. pose proof (nth_lt _ _ _ Ek) as Li.
    assert (H : forgotten (es ++ [e]) (os ++ [o]) i j k).
    { apply (C j i M); rewrite nth_snoc; [destruct (Nat.eqb_spec j (length es))|destruct (Nat.eqb_spec i (length es))]; try lia; assumption. }
    exact (proj1 (forgotten_snoc es os e o i j k L (Nat.lt_le_incl _ _ Lj)) H).
  Qed.
  Lemma careful_session es : let '(os, p) := session RP CG lam es started in
    careful es os -> inv RP CG lam (memory p) /\ os = map (alone RP CG lam) es.
  Proof.
    induction es as [|e es IH] using rev_ind; [intros _; split; [intros k a; discriminate|reflexivity]|]. rewrite session_snoc.
    pose proof (good_session es) as G. destruct (session RP CG lam es started) as [os p].
    destruct (step RP CG lam e p) as [o p'] eqn:E. intros C. rewrite map_app. cbn [map].
    assert (LL : length es = length os) by (destruct G; congruence).
    destruct (IH (careful_snoc _ _ _ _ LL C)) as [I ->].
    destruct (code_of e) as [f|] eqn:F.
    - rewrite (step_code e f p F) in E. rewrite (value_alone e f F).
      destruct (code_runs e f (memory p) F (g_wf _ _ _ G)) as (r & m' & Er & W' & GR & HQ & HI). destruct (HI I) as [I' A].
      unfold returning in E. rewrite Er in E. destruct r as [a|x]; injection E as <- <-; cbn [memory]; split; auto; f_equal; f_equal;
        destruct (value e) as [M|y]; cbn [answered]; cbn [agree] in A; try contradiction.
      + now rewrite A.
      + now rewrite A.
    - destruct (code_None e F) as (i & M & ->). cbn [step] in E. injection E as <- <-. cbn [memory alone]. split; [|reflexivity].
      destruct (nth_error (returned p) i) as [[a|]|] eqn:Ri; auto.
      destruct (g_hold _ _ _ G i a Ri) as (B & ei & fi & Ei & Fi & T).
      assert (N : forall k, table (memory p) k <> Some a).
      { destruct ei; try exact T. destruct T as (T1 & T2 & T3). intros k' E'. assert (k' = k) by exact (T1 k' E'). subst k'. apply T2; [|exact E'].
        assert (FO : forgotten (es ++ [Modify i M]) (map (alone RP CG lam) es ++ [Nothing]) i (length es) k).
        { apply (C (length es) i M); rewrite nth_snoc; [now rewrite Nat.eqb_refl|].
          pose proof (nth_lt _ _ _ Ei). destruct (Nat.eqb_spec i (length es)); [lia|exact Ei]. }
        exact (proj1 (forgotten_snoc _ _ _ _ _ _ _ LL (Nat.le_refl _)) FO). }
      intros k b Ek. cbn [table] in Ek. unfold content. cbn [arrays]. rewrite nth_put by exact B.
      destruct (Nat.eqb_spec b a) as [->|]; [now apply N in Ek|]. now apply I.
  Qed.
End Proofs.

(** ** The theorems *)

Section C83.
  Variable RP : list rsym -> R -> R -> Z -> Z -> Z -> Z -> res (mat R).
  Variable CG : Z -> Z -> Z -> Z -> Z -> Z -> Z -> Z -> Z -> res R.
  Variable lam : Z -> res Z.

  (** If the user changes only arrays that were returned by functions that do
      not remember, or that have been forgotten, every request of the session
      is answered as in a new process. *)
  Theorem C83_careful es : let '(os, _) := session RP CG lam es started in
    careful es os -> os = map (alone RP CG lam) es.
  Proof.
    pose proof (careful_session RP CG lam es) as H. destruct (session RP CG lam es started) as [os p]. intros C. now apply H.
  Qed.

  (** Two calls return the same array exactly when they are the same call of a
      function that remembers and its result was not forgotten in between. *)
  Theorem C83_same_array es i j a b : let '(os, p) := session RP CG lam es started in
    (i < j)%nat -> array_of p i = Some a -> array_of p j = Some b ->
    a = b <-> exists k, nth_error es i = Some (CallRemembering k) /\ nth_error es j = Some (CallRemembering k) /\ ~ forgotten es os i j k.
  Proof.
    pose proof (good_session RP CG lam es) as G. destruct (session RP CG lam es started) as [os p]. intros IJ Ea Eb.
    apply (g_same _ _ _ _ _ _ G); auto; unfold array_of in *.
    - destruct (nth_error (returned p) i) as [[c|]|]; try discriminate. congruence.
    - destruct (nth_error (returned p) j) as [[c|]|]; try discriminate. congruence.
  Qed.

  (** A call returns an array exactly when it is seen to return. *)
  Theorem C83_returns es i e : let '(os, p) := session RP CG lam es started in
    nth_error es i = Some e -> (forall q M, e <> Modify q M) ->
    (exists a M, array_of p i = Some a /\ nth_error os i = Some (Returned M)) \/
    (exists x, array_of p i = None /\ nth_error os i = Some (Raised x)).
  Proof.
    pose proof (good_session RP CG lam es) as G. destruct (session RP CG lam es started) as [os p]. intros E N.
    destruct (code_of RP CG lam e) as [f|] eqn:F.
    - unfold array_of. destruct (g_seen _ _ _ _ _ _ G i e f E F) as [(a & M & R1 & R2)|(x & R1 & R2)]; rewrite R1; [left|right]; eauto.
    - destruct (code_None RP CG lam e F) as (q & M & ->). now destruct (N q M).
  Qed.

  (** No call changes an array that the user has, whatever was done before. *)
  Theorem C83_untouched es e i a : let '(_, p) := session RP CG lam es started in
    (forall q M, e <> Modify q M) -> array_of p i = Some a ->
    array_of (snd (step RP CG lam e p)) i = Some a /\ content (memory (snd (step RP CG lam e p))) a = content (memory p) a.
  Proof.
    pose proof (good_session RP CG lam es) as G. destruct (session RP CG lam es started) as [os p]. intros N E.
    assert (Ri : nth_error (returned p) i = Some (Some a)).
    { unfold array_of in E. destruct (nth_error (returned p) i) as [[c|]|]; try discriminate. congruence. }
    destruct (code_of RP CG lam e) as [f|] eqn:F.
    2:{ destruct (code_None RP CG lam e F) as (q & M & ->). now destruct (N q M). }
    rewrite (step_code RP CG lam e f p F).
    destruct (code_runs RP CG lam e f (memory p) F (g_wf _ _ _ _ _ _ G)) as (r & m' & Er & W' & GR & _).
    pose proof (nth_lt _ _ _ Ri) as Li. destruct (g_hold _ _ _ _ _ _ G i a Ri) as [B _].
    unfold returning. rewrite Er. unfold array_of. destruct r as [b|x]; cbn [snd memory returned];
      rewrite nth_error_app1, Ri by exact Li; (split; [reflexivity|]); now apply grow_content.
  Qed.

  (** Changing an array changes it for the calls that returned this array, and
      no other. *)
  Theorem C83_modified es i j a b M : let '(_, p) := session RP CG lam es started in
    array_of p i = Some a -> array_of p j = Some b ->
    content (memory (snd (step RP CG lam (Modify i M) p))) b = if Nat.eqb a b then M else content (memory p) b.
  Proof.
    pose proof (good_session RP CG lam es) as G. destruct (session RP CG lam es started) as [os p]. intros Ea Eb.
    assert (Ri : nth_error (returned p) i = Some (Some a)).
    { unfold array_of in Ea. destruct (nth_error (returned p) i) as [[c|]|]; try discriminate. congruence. }
    destruct (g_hold _ _ _ _ _ _ G i a Ri) as [B _].
    cbn [step snd memory]. rewrite Ri. unfold content. cbn [arrays]. rewrite nth_put by exact B. now rewrite Nat.eqb_sym.
  Qed.

  (** A remembering call returns what is now in the array that it returned
      before. *)
  Theorem C83_remembered es i k a : let '(os, p) := session RP CG lam es started in
    nth_error es i = Some (CallRemembering k) -> array_of p i = Some a -> ~ forgotten es os i (length es) k ->
    fst (step RP CG lam (CallRemembering k) p) = Returned (content (memory p) a).
  Proof.
    pose proof (good_session RP CG lam es) as G. destruct (session RP CG lam es started) as [os p]. intros Ei Ea NF.
    assert (Ri : nth_error (returned p) i = Some (Some a)).
    { unfold array_of in Ea. destruct (nth_error (returned p) i) as [[c|]|]; try discriminate. congruence. }
    destruct (g_hold _ _ _ _ _ _ G i a Ri) as (B & e & f & E & F & T). rewrite Ei in E. injection E as <-. destruct T as (_ & _ & T).
    cbn [step]. unfold returning. now rewrite (recall_hit RP CG lam k _ a (T NF)).
  Qed.
End C83.

(** ** A small space *)

(** One state: nu = 0, v = 0, L = 0; every radial matrix is [[1]]. *)
Definition RP0 : list rsym -> R -> R -> Z -> Z -> Z -> Z -> res (mat R) := fun _ _ _ _ _ _ _ => Ok (eye 1).
Definition CG0 : Z -> Z -> Z -> Z -> Z -> Z -> Z -> Z -> Z -> res R := fun _ _ _ _ _ _ _ _ _ => Ok 1%R.
Definition lam0 : Z -> res Z := fun v => Ok v.
Definition a0 : xargs := mkXA 1 (5/2) 0 0 0 0 0 0.
Definition five : mat R := mkMat 1 1 (fun _ _ => 5%R).
Definition pi_op : OperatorSum := [(CNum 1, [Xspace_Pi])].

Lemma pi_value : exists M, xcompute RP0 CG0 lam0 NPi a0 = Ok M /\ nrows M = 1 /\ ncols M = 1 /\ ent M 0 0 = 0%R.
Proof. eexists. split; [reflexivity|]. auto. Qed.
Lemma blocks_value E : ent E 0 0 <> 0%R -> exists T, twin_blocks RP0 lam0 [] a0 1 [(0, 1, 0)] E = Ok T /\ nrows T = 1 /\ ncols T = 1 /\ ent T 0 0 = ent E 0 0.
Proof.
  intros N. unfold twin_blocks. change (py_range 1 (1 + 1)) with [1]. cbn [for_]. change (label_at [(0, 1, 0)] (1 - 1)) with (Ok (0, 1, 0) : res label).
  cbn [bind lam0]. change (1 - 1) with 0. destruct (Req_EM_T (ent E 0 0) 0); [contradiction|]. cbn [bind RP0].
  eexists. split; [reflexivity|]. split; [reflexivity|]. split; [reflexivity|]. cbn. ring.
Qed.
Lemma twin_small m : table m (KProduct [] 0 0 0 0) = None -> exists m' T, RepXspace_TwinA RP0 CG0 lam0 [] [] a0 m = (Ok (2 + length (arrays m))%nat, m')
  /\ content m' (2 + length (arrays m)) = T /\ nrows T = 1 /\ ncols T = 1 /\ ent T 0 0 = 1%R /\ exists X, arrays m' = arrays m ++ X.
Proof.
  intros E. unfold RepXspace_TwinA, abind, alift, RepSO5r3_Prod_remA, remember. change (xa_check a0) with (Ok tt : res unit). cbn iota beta.
  change (dimSO5r3_rngVvarL _ _ _ _) with (Ok 1 : res Z). change (lbsSO5r3_rngVvarL _ _ _ _) with (Ok [(0, 1, 0)] : res (list label)). cbn iota beta zeta.
  change (table m (KProduct (map YSym []) (xa_v_min a0) (xa_v_max a0) (xa_L_min a0) (xa_L_max a0))) with (table m (KProduct [] 0 0 0 0)). rewrite E.
  change (RepSO5r3_Prod_wrkA CG0 (map YSym []) (xa_v_min a0) (xa_v_max a0) (xa_L_min a0) (xa_L_max a0) m) with (alloc (eye 1) m).
  cbn -[twin_blocks Req_EM_T rkey_eq_dec powerRZ nth app length mscale eye].
  unfold content at 1. cbn [arrays]. rewrite nth_middle. unfold content at 1. cbn [arrays]. rewrite nth_middle.
  set (sm := mscale _ (eye 1)).
  assert (V : ent sm 0 0 = 1%R) by (cbn; ring).
  destruct (blocks_value sm) as (T & ET & T1 & T2 & T3); [rewrite V; lra|]. rewrite ET. unfold alloc. cbn [arrays].
  eexists _, T. split; [|split; [|rewrite T3, V; repeat split; auto]].
  - rewrite !app_length. cbn. f_equal. f_equal. lia.
  - unfold content. cbn [arrays]. rewrite app_nth2; rewrite !app_length; cbn [length]; [|lia].
    replace (_ - _)%nat with 0%nat by lia. reflexivity.
  - cbn [arrays]. rewrite <- !app_assoc. eexists. reflexivity.
Qed.

(** The word [Xspace_Pi] when the remembered array is [X]. *)
Lemma pi_small m q x : table m (KProduct [] 0 0 0 0) = None -> table m (KFull NPi a0) = Some q ->
  nrows (content m q) = 1 -> ncols (content m q) = 1 -> ent (content m q) 0 0 = x ->
  exists m' b, RepXspace_ProdA RP0 CG0 lam0 [Xspace_Pi] a0 m = (Ok b, m') /\ nrows (content m' b) = 1 /\ ncols (content m' b) = 1 /\ ent (content m' b) 0 0 = x.
Proof.
  intros E F D1 D2 V. unfold RepXspace_ProdA. change (xa_check a0) with (Ok tt : res unit).
  unfold abind at 1, alift at 1. cbn [prod_loopA nonempty orb]. cbn zeta. unfold abind, aret, callA. unfold remember at 1. rewrite F.
  unfold times_remembered, abind, aret, copyA, abind, read. cbn iota beta. unfold alloc at 1. cbn iota beta.
  set (m1 := mkA _ _). destruct (twin_small m1 E) as (m2 & T & E2 & CT & T1 & T2 & T3 & X & EX). rewrite E2.
  unfold times_new, abind, aret, mulA, abind, read, alift.
  assert (C1 : content m2 (length (arrays m)) = content m q).
  { unfold content at 1. rewrite EX. unfold m1. cbn [arrays]. rewrite <- app_assoc. apply nth_middle. }
  rewrite C1, CT. unfold matmul. rewrite D2, T1. cbn [Z.eqb Pos.eqb]. unfold alloc. set (P := mkMat _ _ _).
  assert (CP : content (mkA (arrays m2 ++ [P]) (table m2)) (length (arrays m2)) = P) by (unfold content; cbn [arrays]; apply nth_middle).
  eexists _, _. split; [reflexivity|]. rewrite CP. unfold P. cbn [nrows ncols ent]. rewrite D1, T2.
  split; [reflexivity|]. split; [reflexivity|]. change (Z.to_nat 1) with 1%nat. cbn. rewrite V, T3. ring.
Qed.
Lemma pi_Xspace_small m q x : table m (KProduct [] 0 0 0 0) = None -> table m (KFull NPi a0) = Some q ->
  nrows (content m q) = 1 -> ncols (content m q) = 1 -> ent (content m q) 0 0 = x ->
  exists m' b, RepXspaceA RP0 CG0 lam0 pi_op 1 (5/2) 0 0 0 0 0 None m = (Ok b, m') /\ ent (content m' b) 0 0 = x.
Proof.
  intros E F D1 D2 V. unfold RepXspaceA, pi_op. cbn zeta. fold a0. change (xa_check a0) with (Ok tt : res unit).
  change (lbsXspace 0 0 0 0 0 (Some 0)) with (Ok [(0, (0, 1, 0))] : res (list xlabel)).
  unfold abind, alift. cbn iota beta. unfold RepXspace_TermA. cbn [snd fst terms_loopA].
  destruct (pi_small m q x E F D1 D2 V) as (m1 & b & E1 & _ & _ & V1). unfold abind, aret, scaleA, abind, read. rewrite E1. unfold alloc, cache_clear.
  set (P := mscale _ _). cbn [arrays table].
  assert (CP : forall t, content (mkA (arrays m1 ++ [P]) t) (length (arrays m1)) = P) by (intros t; unfold content; cbn [arrays]; apply nth_middle).
  eexists _, _. split; [reflexivity|]. rewrite CP. unfold P. cbn. rewrite V1. ring.
Qed.

Section Careless.
  Let first : event := CallRemembering (KFull NPi a0).
  Let sum : event := CallXspace pi_op 1 (5/2) 0 0 0 0 0 None.

  (** Changing an array that is remembered changes later results, also those of
      [RepXspace]: the matrix of the operator pi has 0 in a new process, and 5
      after a 5 has been written into the array returned by
      [RepXspace_Pi]. *)
  Theorem C83_careless_refuted :
    ~ forall RP CG lam es, fst (session RP CG lam es started) = map (alone RP CG lam) es.
  Proof.
    intros H. specialize (H RP0 CG0 lam0 [first; Modify 0 five; sum]).
    destruct pi_value as (M & EM & M1 & M2 & M3).
    cbn [session] in H.
    assert (S1 : step RP0 CG0 lam0 first started = (Returned M, mkP (mkA [M] (fun k' => if rkey_eq_dec k' (KFull NPi a0) then Some 0%nat else None)) [Some 0%nat])).
    { cbn [step first]. unfold returning. cbn [recallA]. unfold callA, remember, abind, alift. rewrite EM. reflexivity. }
    rewrite S1 in H. cbn [step returned app nth_error memory arrays put table] in H.
    set (t := fun k' => if rkey_eq_dec k' (KFull NPi a0) then Some 0%nat else None) in H.
    assert (TP : t (KProduct [] 0 0 0 0) = None) by (unfold t; destruct (rkey_eq_dec _ _); [discriminate|reflexivity]).
    assert (TF : t (KFull NPi a0) = Some 0%nat) by (unfold t; destruct (rkey_eq_dec _ _); [reflexivity|contradiction]).
    destruct (pi_Xspace_small (mkA [five] t) 0%nat 5 TP TF eq_refl eq_refl eq_refl) as (m' & b & E & V).
    cbn [step sum] in H. unfold returning at 1 in H. cbn [memory] in H. rewrite E in H. cbn [fst map alone] in H.
    pose proof (C83_careful RP0 CG0 lam0 [first; sum]) as C. cbn [session] in C. rewrite S1 in C. cbn [step sum] in C. unfold returning at 1 in C. cbn [memory] in C. fold t in C.
    destruct (pi_Xspace_small (mkA [M] t) 0%nat 0 TP TF M1 M2 M3) as (m2 & b2 & E2 & V2). rewrite E2 in C.
    assert (CC : careful [first; sum] [Returned M; Returned (content m2 b2)]).
    { intros [|[|j]] i N X; try discriminate. destruct j; discriminate. }
    specialize (C CC). cbn [map alone sum] in C. injection C as _ C. cbn [alone sum] in H. injection H as _ H. rewrite <- C in H. injection H as H.
    rewrite H in V. lra.
  Qed.

  (** The array returned by [RepXspace_Pi] is changed after it has been
      forgotten, that returned by [RepXspace] at once; the next results are not
      affected. *)
  Example C83_careful_case :
    let es := [first; sum; Modify 0 five; Modify 1 five; sum] in
    careful es (fst (session RP0 CG0 lam0 es started)) /\ fst (session RP0 CG0 lam0 es started) = map (alone RP0 CG0 lam0) es.
  Proof.
    intros es.
    assert (C : careful es (fst (session RP0 CG0 lam0 es started))).
    { destruct pi_value as (M & EM & M1 & M2 & M3). unfold es. cbn [session].
      assert (S1 : step RP0 CG0 lam0 first started = (Returned M, mkP (mkA [M] (fun k' => if rkey_eq_dec k' (KFull NPi a0) then Some 0%nat else None)) [Some 0%nat])).
      { cbn [step first]. unfold returning. cbn [recallA]. unfold callA, remember, abind, alift. rewrite EM. reflexivity. }
      rewrite S1. set (t := fun k' => if rkey_eq_dec k' (KFull NPi a0) then Some 0%nat else None).
      assert (TP : t (KProduct [] 0 0 0 0) = None) by (unfold t; destruct (rkey_eq_dec _ _); [discriminate|reflexivity]).
      assert (TF : t (KFull NPi a0) = Some 0%nat) by (unfold t; destruct (rkey_eq_dec _ _); [reflexivity|contradiction]).
      destruct (pi_Xspace_small (mkA [M] t) 0%nat 0 TP TF M1 M2 M3) as (m2 & b2 & E2 & V2).
      assert (S2 : exists p2, step RP0 CG0 lam0 sum (mkP (mkA [M] t) [Some 0%nat]) = (Returned (content m2 b2), p2)).
      { cbn [step sum]. unfold returning. cbn [memory]. rewrite E2. eauto. }
      destruct S2 as [p2 S2]. rewrite S2. destruct (step RP0 CG0 lam0 (Modify 0 five) p2) as [o3 p3].
      destruct (step RP0 CG0 lam0 (Modify 1 five) p3) as [o4 p4]. destruct (step RP0 CG0 lam0 sum p4) as [o5 p5]. cbn [fst].
      intros [|[|[|[|[|j]]]]] i N X; try discriminate.
      - injection X as <- <-. intros k Ek. injection Ek as <-. exists 1%nat, sum, (content m2 b2). split; [lia|]. repeat split.
      - injection X as <- <-. intros k Ek. discriminate.
      - destruct j; discriminate. }
    split; [exact C|]. pose proof (C83_careful RP0 CG0 lam0 es) as H. destruct (session RP0 CG0 lam0 es started) as [os p]. now apply H.
  Qed.
  (** Without a call of [RepXspace] in between the same call returns the same
      array. *)
  Example C83_same_case : let p := snd (session RP0 CG0 lam0 [first; first] started) in
    exists a b, array_of p 0 = Some a /\ array_of p 1 = Some b /\ a = b.
  Proof.
    intros p. destruct pi_value as (M & EM & M1 & M2 & M3).
    pose proof (C83_returns RP0 CG0 lam0 [first; first]) as H. pose proof (C83_same_array RP0 CG0 lam0 [first; first] 0 1) as S.
    assert (Q : exists os, session RP0 CG0 lam0 [first; first] started = (os, p) /\ nth_error os 0 = Some (Returned M) /\ nth_error os 1 = Some (Returned M)).
    { unfold p. cbn [session].
      assert (S1 : step RP0 CG0 lam0 first started = (Returned M, mkP (mkA [M] (fun k' => if rkey_eq_dec k' (KFull NPi a0) then Some 0%nat else None)) [Some 0%nat])).
      { cbn [step first]. unfold returning. cbn [recallA]. unfold callA, remember, abind, alift. rewrite EM. reflexivity. }
      rewrite S1. set (t := fun k' => if rkey_eq_dec k' (KFull NPi a0) then Some 0%nat else None).
      assert (TF : t (KFull NPi a0) = Some 0%nat) by (unfold t; destruct (rkey_eq_dec _ _); [reflexivity|contradiction]).
      cbn [step first]. unfold returning. cbn [memory]. rewrite (recall_hit RP0 CG0 lam0 (KFull NPi a0) (mkA [M] t) 0 TF). cbn. eauto. }
    destruct Q as (os & Q & O0 & O1). rewrite Q in S.
    pose proof (H 0%nat first) as H0. pose proof (H 1%nat first) as H1. rewrite Q in H0, H1.
    destruct (H0 eq_refl) as [(a & N & A0 & _)|(x & _ & B)]; [intros; discriminate| |congruence].
    destruct (H1 eq_refl) as [(b & N1 & A1 & _)|(x & _ & B)]; [intros; discriminate| |congruence].
    exists a, b. split; [exact A0|]. split; [exact A1|]. apply (S a b); auto. exists (KFull NPi a0). repeat split.
    intros (l & c & N2 & B & _). lia.
  Qed.
End Careless.

Print Assumptions C83_careful.
Print Assumptions C83_same_array.
Print Assumptions C83_returns.
Print Assumptions C83_untouched.
Print Assumptions C83_modified.
Print Assumptions C83_remembered.
Print Assumptions C83_careless_refuted.
