(** Facts about FullSharing.v: which arrays are new, which are remembered, and
    what they contain. *)

From Coq Require Import Reals.
From Coq Require Import Lia ZifyBool ZifyNat.
From Verif Require Import PyBase PyFacts Compat Matrix Spherical FullLabels RadialOps Operators FullOps FullOpsMemo DataMemo DataMemoFacts
  FullSharing.
Open Scope Z_scope.

Section Facts.
  Variable RP : list rsym -> R -> R -> Z -> Z -> Z -> Z -> res (mat R).
  Variable CG : Z -> Z -> Z -> Z -> Z -> Z -> Z -> Z -> Z -> res R.
  Variable lam : Z -> res Z.

  (** What the function behind a key computes. *)
  Definition pure (k : rkey) : res (mat R) :=
    match k with
    | KHarmonic v al L v_min v_max L_min L_max => RepSO5_Y CG v al L v_min v_max L_min L_max
    | KProduct ys v_min v_max L_min L_max => RepSO5r3_Prod CG ys v_min v_max L_min L_max
    | KFull n a => xcompute RP CG lam n a
    end.

  Definition size (m : amem) : nat := length (arrays m).

  (** Remembered arrays exist, and are remembered under one key. *)
  Definition wf (m : amem) : Prop :=
    (forall k a, table m k = Some a -> (a < size m)%nat) /\
    (forall k k' a, table m k = Some a -> table m k' = Some a -> k = k').
  (** Remembered arrays are what would be computed. *)
  Definition inv (m : amem) : Prop := forall k a, table m k = Some a -> pure k = Ok (content m a).
  (** Arrays keep their contents; arrays remembered since are new. *)
  Definition grow (m m' : amem) : Prop :=
    (exists X, arrays m' = arrays m ++ X) /\
    (forall k a, table m' k = Some a -> table m k = Some a \/ (size m <= a)%nat).

  Lemma grow_refl m : grow m m.
  Proof. split; [exists []; now rewrite app_nil_r|]. auto. Qed.
  Lemma grow_size m m' : grow m m' -> (size m <= size m')%nat.
  Proof. intros [[X E] _]. unfold size. rewrite E, app_length. lia. Qed.
  Lemma grow_trans m1 m2 m3 : grow m1 m2 -> grow m2 m3 -> grow m1 m3.
  Proof.
    intros G1 G2. pose proof (grow_size _ _ G1). destruct G1 as [[X E] T1], G2 as [[Y F] T2]. split.
    - exists (X ++ Y). now rewrite F, E, app_assoc.
    - intros k a H1. destruct (T2 k a H1) as [H2|]; [|lia]. exact (T1 k a H2).
  Qed.
  Lemma grow_content m m' a : grow m m' -> (a < size m)%nat -> content m' a = content m a.
  Proof. intros [[X E] _] H. unfold content. rewrite E. now apply app_nth1. Qed.

  (** [a] was made between [m] and [m'] and is not remembered. *)
  Definition mine (m m' : amem) (a : nat) : Prop :=
    (size m <= a < size m')%nat /\ forall k, table m' k <> Some a.
  Lemma mine_grow m m1 m2 a : grow m1 m2 -> mine m m1 a -> mine m m2 a.
  Proof.
    intros G [B T]. pose proof (grow_size _ _ G). split; [lia|]. intros k E. destruct (proj2 G k a E) as [H1|H1]; [now apply T in H1|lia].
  Qed.
  Lemma mine_earlier m m1 m2 a : grow m m1 -> mine m1 m2 a -> mine m m2 a.
  Proof. intros G [B T]. apply grow_size in G. split; [lia|exact T]. Qed.

  (** The same outcome: the array contains the matrix, or the same exception. *)
  Definition agree {A B} (rel : A -> B -> Prop) (r : res A) (v : res B) : Prop :=
    match r, v with
    | Ok a, Ok b => rel a b
    | Raise e, Raise e' => e = e'
    | _, _ => False
    end.
  Definition holds (m : amem) (a : nat) (M : mat R) : Prop := content m a = M.

  (** From [m] on: [f] keeps the structure, a result satisfies [Q]; if [V]
      (facts about contents) the remembered arrays are right afterwards and the
      outcome is [v]. *)
  Definition runs {A B} (V : Prop) (f : am A) (m : amem) (Q : amem -> A -> Prop) (v : res B) (rel : amem -> A -> B -> Prop) : Prop :=
    exists r m', f m = (r, m') /\ wf m' /\ grow m m' /\ (forall a, r = Ok a -> Q m' a)
      /\ (V -> inv m' /\ agree (rel m') r v).
  Definition new_array (f : am nat) (v : res (mat R)) : Prop :=
    forall m, wf m -> runs (inv m) f m (mine m) v holds.

  Lemma runs_weaken {A B} (V V' : Prop) (f : am A) m (Q Q' : amem -> A -> Prop) (v v' : res B) (rel rel' : amem -> A -> B -> Prop) :
    runs V f m Q v rel -> (V' -> V) -> (forall m' a, grow m m' -> Q m' a -> Q' m' a) -> v = v' ->
    (forall m' a x, Q m' a -> rel m' a x -> rel' m' a x) ->
    runs V' f m Q' v' rel'.
  Proof.
    intros (r & m' & E & W & G & HQ & HI) HV HQ' <- HR. exists r, m'. split; [exact E|]. split; [exact W|]. split; [exact G|].
    split; [intros a Ha; apply HQ'; auto|]. intros HV'. destruct (HI (HV HV')) as [I A1]. split; [exact I|].
    destruct r as [a|e], v as [x|e']; cbn in *; auto.
  Qed.

  Lemma runs_lift {A} (x : res A) m : wf m -> runs (inv m) (alift x) m (fun m' a => m' = m /\ x = Ok a) x (fun _ => eq).
  Proof.
    intros W. exists x, m. split; [reflexivity|]. split; [exact W|]. split; [apply grow_refl|]. split; [auto|].
    intros I. split; [exact I|]. now destruct x.
  Qed.

  Lemma runs_bind {A B A' B'} (V : Prop) (f : am A) (g : A -> am B) m Q (v : res A') rel Q' (w : A' -> res B') rel' :
    runs V f m Q v rel -> inhabited A' ->
    (forall a m' x, wf m' -> grow m m' -> Q m' a -> runs (V /\ inv m' /\ rel m' a x) (g a) m' Q' (w x) rel') ->
    runs V (abind f g) m Q' (let* x := v in w x) rel'.
  Proof.
    intros (r & m' & E & W & G & HQ & HI) [x0] H. unfold runs, abind. rewrite E. destruct r as [a|e].
    - destruct v as [x|e'].
      + destruct (H a m' x W G (HQ a eq_refl)) as (r & m'' & E2 & W2 & G2 & Q2 & I2).
        exists r, m''. split; [exact E2|]. split; [exact W2|]. split; [now apply (grow_trans m m' m'')|]. split; [exact Q2|].
        intros HV. destruct (HI HV) as [I A1]. apply I2. auto.
      + destruct (H a m' x0 W G (HQ a eq_refl)) as (r & m'' & E2 & W2 & G2 & Q2 & I2).
        exists r, m''. split; [exact E2|]. split; [exact W2|]. split; [now apply (grow_trans m m' m'')|].
        split; [exact Q2|]. intros I. apply HI in I. destruct I as [_ []].
    - exists (Raise e), m'. split; [reflexivity|]. split; [exact W|]. split; [exact G|]. split; [discriminate|].
      intros I. apply HI in I. destruct I as [I A1]. split; [exact I|]. destruct v as [x|e']; [destruct A1|]. cbn [bind]. exact A1.
  Qed.

  (** A pure computation first. *)
  Lemma runs_lift_bind {A B B'} (V : Prop) (x : res A) (g : A -> am B) m Q' (w : A -> res B') rel' :
    wf m -> (V -> inv m) -> (forall a, x = Ok a -> runs V (g a) m Q' (w a) rel') ->
    runs V (abind (alift x) g) m Q' (let* y := x in w y) rel'.
  Proof.
    intros W HV H. destruct x as [a|e].
    - exact (H a eq_refl).
    - exists (Raise e), m. split; [reflexivity|]. split; [exact W|]. split; [apply grow_refl|]. split; [discriminate|].
      intros I. split; [now apply HV|reflexivity].
  Qed.

  Lemma mem_no_inh : inhabited (mat R).
  Proof. constructor. exact no_array. Qed.

  (** Steps. *)
  Lemma runs_alloc (V : Prop) M m : wf m -> (V -> inv m) -> runs V (alloc M) m (mine m) (Ok M) holds.
  Proof.
    intros W HV. eexists _, _. split; [reflexivity|]. unfold mine, wf, inv, size, content, holds. cbn [arrays table].
    rewrite app_length. cbn [length]. destruct W as [W1 W2]. split; [split|].
    - intros k a E. apply W1 in E. unfold size in E. lia.
    - exact W2.
    - split; [split; [exists [M]; reflexivity|auto]|]. split.
      + intros a E. injection E as <-. split; [lia|]. intros k E. apply W1 in E. unfold size in E. lia.
      + intros I. apply HV in I. split; [|apply nth_middle].
        intros k a E. rewrite app_nth1; [now apply I|]. now apply (W1 k).
  Qed.
  Lemma runs_read (V : Prop) a m : wf m -> (V -> inv m) -> runs V (read a) m (fun m' M => m' = m /\ M = content m a) (Ok (content m a)) (fun _ => eq).
  Proof.
    intros W HV. eexists _, m. split; [reflexivity|]. split; [exact W|]. split; [apply grow_refl|]. split; [intros x E; injection E as <-; auto|].
    intros I. split; [auto|reflexivity].
  Qed.
  Lemma runs_ret {A B} (V : Prop) (a : A) m (Q : amem -> A -> Prop) (x : B) (rel : amem -> A -> B -> Prop) : wf m -> (V -> inv m) -> Q m a -> (V -> rel m a x) ->
    runs V (aret a) m Q (Ok x) rel.
  Proof.
    intros W HV HQ HR. exists (Ok a), m. split; [reflexivity|]. split; [exact W|]. split; [apply grow_refl|].
    split; [intros b E; now injection E as <-|]. intros I. split; [auto|]. cbn. auto.
  Qed.
  Lemma runs_raise {A B} (V : Prop) (e : exn) m (Q : amem -> A -> Prop) (rel : amem -> A -> B -> Prop) : wf m -> (V -> inv m) ->
    runs V (alift (Raise e)) m Q (Raise e) rel.
  Proof.
    intros W HV. exists (Raise e), m. split; [reflexivity|]. split; [exact W|]. split; [apply grow_refl|].
    split; [discriminate|]. intros I. split; [auto|reflexivity].
  Qed.

  (** Reading first. *)
  Lemma read_bind {B} a (g : mat R -> am B) m : abind (read a) g m = g (content m a) m.
  Proof. reflexivity. Qed.

  Lemma runs_copy (V : Prop) a m M : wf m -> (V -> inv m) -> (V -> content m a = M) -> runs V (copyA a) m (mine m) (Ok M) holds.
  Proof.
    intros W HV HC. destruct (runs_alloc V (content m a) m W HV) as (r & m' & E & W' & G & HQ & HI).
    exists r, m'. split; [exact E|]. split; [exact W'|]. split; [exact G|]. split; [exact HQ|]. intros I. rewrite <- (HC I). auto.
  Qed.
  Lemma runs_scale (V : Prop) c a m M : wf m -> (V -> inv m) -> (V -> content m a = M) -> runs V (scaleA c a) m (mine m) (Ok (mscale c M)) holds.
  Proof.
    intros W HV HC. destruct (runs_alloc V (mscale c (content m a)) m W HV) as (r & m' & E & W' & G & HQ & HI).
    exists r, m'. split; [exact E|]. split; [exact W'|]. split; [exact G|]. split; [exact HQ|]. intros I. rewrite <- (HC I). auto.
  Qed.
  Lemma runs_add (V : Prop) a b m M N : wf m -> (V -> inv m) -> (V -> content m a = M) -> (V -> content m b = N) ->
    runs V (addA a b) m (mine m) (Ok (madd M N)) holds.
  Proof.
    intros W HV HC HD. destruct (runs_alloc V (madd (content m a) (content m b)) m W HV) as (r & m' & E & W' & G & HQ & HI).
    exists r, m'. split; [exact E|]. split; [exact W'|]. split; [exact G|]. split; [exact HQ|]. intros I. rewrite <- (HC I), <- (HD I). auto.
  Qed.
  Lemma runs_mul (V : Prop) a b m M N : wf m -> (V -> inv m) -> (V -> content m a = M) -> (V -> content m b = N) ->
    runs V (mulA a b) m (mine m) (matmul M N) holds.
  Proof.
    intros W HV HC HD.
    assert (H : runs V (mulA a b) m (mine m) (matmul (content m a) (content m b)) holds).
    { unfold mulA. unfold runs. rewrite !read_bind.
      destruct (matmul (content m a) (content m b)) as [P|e].
      - exact (runs_alloc V P m W HV).
      - exact (runs_raise V e m _ _ W HV). }
    destruct H as (r & m' & E & W' & G & HQ & HI).
    exists r, m'. split; [exact E|]. split; [exact W'|]. split; [exact G|]. split; [exact HQ|]. intros I. rewrite <- (HC I), <- (HD I). auto.
  Qed.

  (** A remembered array. *)
  Definition kept (k : rkey) (m : amem) (a : nat) : Prop := table m k = Some a.
  Lemma runs_remember k f m : wf m -> new_array f (pure k) -> runs (inv m) (remember k f) m (kept k) (pure k) holds.
  Proof.
    intros W H. unfold runs, remember. destruct (table m k) as [a|] eqn:E.
    - exists (Ok a), m. split; [reflexivity|]. split; [exact W|]. split; [apply grow_refl|]. split; [intros b F; injection F as <-; exact E|].
      intros I. split; [exact I|]. rewrite (I k a E). reflexivity.
    - destruct (H m W) as (r & m' & F & W' & G & HQ & HI). rewrite F. destruct r as [a|e].
      + destruct (HQ a eq_refl) as [B T].
        eexists _, _. split; [reflexivity|]. split; [|split; [|split]].
        * destruct W' as [W1 W2]. split; unfold size; cbn [arrays table].
          -- intros k' b. destruct (rkey_eq_dec k' k); [intros X; injection X as <-; apply B|apply W1].
          -- intros k1 k2 b. destruct (rkey_eq_dec k1 k), (rkey_eq_dec k2 k); intros X1 X2.
             ++ congruence.
             ++ injection X1 as <-. now apply T in X2.
             ++ injection X2 as <-. now apply T in X1.
             ++ now apply (W2 _ _ b).
        * destruct G as [G1 G2]. split; [exact G1|]. cbn [arrays table]. intros k' b.
          destruct (rkey_eq_dec k' k); [intros X; injection X as <-; right; apply B|apply G2].
        * intros b X. injection X as <-. unfold kept. cbn [table]. destruct (rkey_eq_dec k k); congruence.
        * intros I. destruct (HI I) as [I' A1]. destruct (pure k) as [M|e] eqn:PK; [|destruct A1]. split; [|exact A1].
          intros k' b. cbn [table]. destruct (rkey_eq_dec k' k) as [->|]; [|apply I'].
          intros X. injection X as <-. rewrite PK. f_equal. symmetry. exact A1.
      + exists (Raise e), m'. split; [reflexivity|]. split; [exact W'|]. split; [exact G|]. split; [discriminate|exact HI].
  Qed.
  Lemma kept_lt k m a : wf m -> kept k m a -> (a < size m)%nat.
  Proof. intros [W _]. apply W. Qed.

  Lemma new_of_lift (x : res (mat R)) : new_array (arr* M <- alift x ;; alloc M) x.
  Proof.
    intros m W. replace x with (let* y := x in Ok y) at 2 by (now destruct x).
    apply runs_lift_bind; auto. intros M _. now apply runs_alloc.
  Qed.

  Lemma runs_Y_rem v al L v0 v1 L0 L1 m : wf m ->
    runs (inv m) (RepSO5_Y_remA CG v al L v0 v1 L0 L1) m (kept (KHarmonic v al L v0 v1 L0 L1)) (RepSO5_Y CG v al L v0 v1 L0 L1) holds.
  Proof. intros W. apply runs_remember; [exact W|]. apply new_of_lift. Qed.
  Lemma runs_call n a m : wf m ->
    runs (inv m) (callA RP CG lam n a) m (kept (KFull n a)) (xcompute RP CG lam n a) holds.
  Proof. intros W. apply runs_remember; [exact W|]. apply new_of_lift. Qed.

  Definition here (m : amem) (a : nat) : Prop := (a < size m)%nat.
  Lemma runs_ys y v0 v1 L0 L1 m : wf m -> runs (inv m) (ys_matA CG y v0 v1 L0 L1) m (fun m' a => (a < size m')%nat) (ys_mat CG y v0 v1 L0 L1) holds.
  Proof.
    intros W.
    assert (Y : forall v al L, runs (inv m) (RepSO5_Y_remA CG v al L v0 v1 L0 L1) m (fun m' a => (a < size m')%nat) (RepSO5_Y CG v al L v0 v1 L0 L1) holds).
    { intros v al L. destruct (runs_Y_rem v al L v0 v1 L0 L1 m W) as (r & m' & E & W' & G & HQ & HI).
      exists r, m'. split; [exact E|]. split; [exact W'|]. split; [exact G|]. split; [|exact HI].
      intros a Ha. apply (kept_lt (KHarmonic v al L v0 v1 L0 L1)); auto. }
    assert (N : forall x, runs (inv m) (arr* M <- alift x ;; alloc M) m (fun m' a => (a < size m')%nat) x holds).
    { intros x. apply (runs_weaken (inv m) _ _ _ (mine m) _ x x holds holds); auto; [now apply new_of_lift|]. intros m' a _ [B _]. lia. }
    destruct y as [s|v al L]; cbn [ys_matA ys_mat]; [|apply Y].
    destruct s; try (now apply runs_raise); try apply N. destruct (SpHarm_Table h) as [[v al] L]. apply Y.
  Qed.

  (** *** internal_operators.py *)

  Definition osome (Q : amem -> nat -> Prop) (m : amem) (o : option nat) : Prop := exists a, o = Some a /\ Q m a.
  Definition oholds (m : amem) (o : option nat) (M : mat R) : Prop := exists a, o = Some a /\ content m a = M.

  Lemma runs_wrk_some ys v0 v1 L0 L1 : forall (V : Prop) m0 P x m,
    wf m -> grow m0 m -> mine m0 m P -> (V -> inv m) -> (V -> content m P = x) ->
    runs V (wrk_loopA CG ys v0 v1 L0 L1 (Some P)) m (osome (mine m0))
      (fold_left (fun acc y => let* P := acc in let* M := ys_mat CG y v0 v1 L0 L1 in matmul P M) ys (Ok x)) oholds.
  Proof.
    set (F := fun (acc : res (mat R)) y => let* P := acc in let* M := ys_mat CG y v0 v1 L0 L1 in matmul P M).
    assert (RF : forall e ys, fold_left F ys (Raise e) = Raise e) by (intros e l; induction l as [|y l IHl]; [reflexivity|exact IHl]).
    induction ys as [|y ys IH]; intros V m0 P x m W G MP HV HC; cbn [wrk_loopA fold_left].
    - apply runs_ret; auto; exists P; auto.
    - replace (fold_left F ys (F (Ok x) y)) with (let* M := ys_mat CG y v0 v1 L0 L1 in let* z := matmul x M in fold_left F ys (Ok z)).
      2:{ change (F (Ok x) y) with (let* M := ys_mat CG y v0 v1 L0 L1 in matmul x M). destruct (ys_mat _ _ _ _ _ _) as [M|]; cbn [bind]; [|now rewrite RF]. destruct (matmul x M); [reflexivity|now rewrite RF]. }
      assert (LP : (P < size m)%nat) by apply MP.
      eapply runs_bind; [|exact mem_no_inh|].
      { apply (runs_weaken (inv m) V _ _ _ _ _ _ holds holds (runs_ys y v0 v1 L0 L1 m W) HV (fun m' a _ H => H) eq_refl (fun m' a x _ H => H)). }
      intros a m1 M W1 G1 La.
      eapply runs_bind; [|exact mem_no_inh|].
      { apply (runs_mul _ P a m1 x M W1).
        - tauto.
        - intros (X & _). rewrite (grow_content _ _ _ G1 LP). auto.
        - intros (_ & _ & X). exact X. }
      intros P2 m2 z W2 G2 MP2. apply IH; auto.
      + apply (grow_trans _ m); [exact G|]. now apply (grow_trans _ m1).
      + apply (mine_earlier m0 m1); [now apply (grow_trans _ m)|exact MP2].
      + tauto.
      + intros (_ & _ & X). exact X.
  Qed.

  Lemma new_wrk ys v0 v1 L0 L1 : new_array (RepSO5r3_Prod_wrkA CG ys v0 v1 L0 L1) (RepSO5r3_Prod CG ys v0 v1 L0 L1).
  Proof.
    intros m W. destruct ys as [|y ys]; unfold RepSO5r3_Prod_wrkA, RepSO5r3_Prod.
    - apply runs_lift_bind; auto. intros d _. now apply runs_alloc.
    - cbn [wrk_loopA].
      set (F := fold_left _ ys).
      set (K := fun P => match P with Some P => aret P | None => alift (Raise AssertionError) end).
      assert (H : runs (inv m) (arr* M <- ys_matA CG y v0 v1 L0 L1 ;; arr* P <- copyA M ;; wrk_loopA CG ys v0 v1 L0 L1 (Some P)) m
        (osome (mine m)) (let* M0 := ys_mat CG y v0 v1 L0 L1 in let* z := Ok M0 in F (Ok z)) oholds).
      { eapply runs_bind; [now apply runs_ys|exact mem_no_inh|].
        intros a m1 M W1 G1 La. eapply runs_bind; [|exact mem_no_inh|].
        - apply (runs_copy _ a m1 M W1); [tauto|]. intros (_ & _ & X). exact X.
        - intros P m2 z W2 G2 MP. apply runs_wrk_some; auto.
          + now apply (grow_trans _ m1).
          + now apply (mine_earlier m m1).
          + tauto.
          + intros (_ & _ & X). exact X. }
      cbn [bind] in H. replace (let* M0 := ys_mat CG y v0 v1 L0 L1 in F (Ok M0))
        with (let* x := (let* M0 := ys_mat CG y v0 v1 L0 L1 in F (Ok M0)) in Ok x).
      2:{ destruct (ys_mat _ _ _ _ _ _) as [M0|]; cbn [bind]; [|reflexivity]. now destruct (F (Ok M0)). }
      eapply runs_bind; [exact H|exact mem_no_inh|].
      intros o m' x W' G' (P & -> & MP). apply runs_ret; auto; [tauto|].
      intros (_ & _ & P' & E & X). injection E as <-. exact X.
  Qed.

  Lemma runs_Prod_rem ys v0 v1 L0 L1 m : wf m ->
    runs (inv m) (RepSO5r3_Prod_remA CG ys v0 v1 L0 L1) m (kept (KProduct ys v0 v1 L0 L1)) (RepSO5r3_Prod CG ys v0 v1 L0 L1) holds.
  Proof. intros W. apply runs_remember; [exact W|]. apply new_wrk. Qed.

  (** Clearing, at the end of a function. *)
  Lemma new_clear p f v : new_array f v -> new_array (arr* r <- f ;; arr* _ <- cache_clear p ;; aret r) v.
  Proof.
    intros H m W. destruct (H m W) as (r & m' & E & W' & G & HQ & HI). unfold runs, abind. rewrite E. destruct r as [a|e].
    - eexists _, _. split; [reflexivity|]. destruct W' as [W1 W2], G as [G1 G2]. destruct (HQ a eq_refl) as [B T]. split; [|split; [|split]].
      + split; unfold size; cbn [arrays table].
        * intros k b. destruct (p k); [discriminate|apply W1].
        * intros k k' b. destruct (p k); [discriminate|]. destruct (p k'); [discriminate|apply W2].
      + split; [exact G1|]. cbn [table]. intros k b. destruct (p k); [discriminate|apply G2].
      + intros b X. injection X as <-. split; [exact B|]. intros k. cbn [table]. destruct (p k); [discriminate|apply T].
      + intros I. destruct (HI I) as [I' A1]. split; [|exact A1]. intros k b. cbn [table]. destruct (p k); [discriminate|apply I'].
    - exists (Raise e), m'. split; [reflexivity|]. split; [exact W'|]. split; [exact G|]. split; [discriminate|exact HI].
  Qed.
  Lemma new_Prod ys v0 v1 L0 L1 : new_array (RepSO5r3_ProdA CG ys v0 v1 L0 L1) (RepSO5r3_Prod CG ys v0 v1 L0 L1).
  Proof. apply new_clear, new_wrk. Qed.

  (** *** full_operators.py *)

  Lemma new_Twin rad sph a : new_array (RepXspace_TwinA RP CG lam rad sph a) (RepXspace_Twin RP CG lam rad sph a).
  Proof.
    intros m W. unfold RepXspace_TwinA, RepXspace_Twin.
    apply runs_lift_bind; auto. intros _ _. apply runs_lift_bind; auto. intros d _. apply runs_lift_bind; auto. intros l _. cbn zeta.
    eapply runs_bind; [now apply runs_Prod_rem|exact mem_no_inh|]. intros b m1 M W1 G1 Kb.
    set (c := powerRZ _ _).
    change (runs (inv m /\ inv m1 /\ holds m1 b M)
      (arr* sph_Mat <- scaleA c b ;; arr* entries <- read sph_Mat ;; arr* direct_Mat <- alift (twin_blocks RP lam rad a d l entries) ;; alloc direct_Mat)
      m1 (mine m) (let* E := Ok (mscale c M) in twin_blocks RP lam rad a d l E) holds).
    eapply runs_bind; [|exact mem_no_inh|].
    - apply (runs_scale _ c b m1 M W1); [tauto|]. intros (_ & _ & X). exact X.
    - intros s m2 En W2 G2 Ms.
      assert (H : runs ((inv m /\ inv m1 /\ holds m1 b M) /\ inv m2 /\ holds m2 s En)
        (arr* direct_Mat <- alift (twin_blocks RP lam rad a d l (content m2 s)) ;; alloc direct_Mat) m2 (mine m)
        (let* D := twin_blocks RP lam rad a d l (content m2 s) in Ok D) holds).
      { apply runs_lift_bind; [exact W2|tauto|]. intros D _.
        apply (runs_weaken ((inv m /\ inv m1 /\ holds m1 b M) /\ inv m2 /\ holds m2 s En) _ _ _ (mine m2) _ (Ok D) _ holds); auto; [apply runs_alloc; tauto|].
        intros m3 x G3. apply mine_earlier. apply (grow_trans _ m1); assumption. }
      destruct H as (r & m3 & E & W3 & G3 & HQ & HI). exists r, m3. split; [exact E|]. split; [exact W3|]. split; [exact G3|].
      split; [exact HQ|]. intros HV. destruct (HI HV) as [I A1]. split; [exact I|]. destruct HV as (_ & _ & X). unfold holds in X. rewrite X in A1.
      destruct (twin_blocks RP lam rad a d l En); exact A1.
  Qed.

  (** [run_Mat]. *)
  Definition orel (m : amem) (run : option nat) (x : option (mat R)) : Prop :=
    match run, x with Some P, Some M => content m P = M | None, None => True | _, _ => False end.
  Definition olt (m : amem) (run : option nat) : Prop := forall P, run = Some P -> (P < size m)%nat.
  Lemma olt_grow m m' run : grow m m' -> olt m run -> olt m' run.
  Proof. intros G H P E. apply grow_size in G. apply H in E. lia. Qed.
  Lemma orel_grow m m' run x : grow m m' -> olt m run -> orel m run x -> orel m' run x.
  Proof. intros G L. destruct run as [P|], x as [M|]; cbn; auto. intros <-. apply grow_content; auto. Qed.

  (** When the running product is unknown there is nothing to say about its
      value, so a matrix is chosen. *)
  Lemma runs_times_new (V : Prop) m0 run X m x M : wf m -> grow m0 m -> mine m0 m X -> (V -> inv m) -> (V -> orel m run x) -> (V -> content m X = M) ->
    runs V (times_new run X) m (osome (mine m0)) (times x M) orel.
  Proof.
    intros W G MX HV HR HC. destruct run as [P|]; cbn [times_new].
    - assert (K : exists r m', (arr* Q <- mulA P X ;; aret (Some Q)) m = (r, m') /\ wf m' /\ grow m m' /\ (forall o, r = Ok o -> osome (mine m0) m' o) /\
        (V -> forall M0, content m P = M0 -> inv m' /\ agree (orel m') r (let* Q := matmul M0 M in Ok (Some Q)))).
      { destruct (runs_mul V P X m (content m P) M W HV (fun _ => eq_refl) HC) as (r & m' & E & W' & G' & HQ & HI).
        unfold abind. rewrite E. destruct r as [Q|e].
        - exists (Ok (Some Q)), m'. split; [reflexivity|]. split; [exact W'|]. split; [exact G'|]. split.
          + intros o Eo. injection Eo as <-. exists Q. split; [reflexivity|]. apply (mine_earlier m0 m); auto.
          + intros HV' M0 <-. destruct (HI HV') as [I A1]. split; [exact I|]. destruct (matmul (content m P) M); [exact A1|exact A1].
        - exists (Raise e), m'. split; [reflexivity|]. split; [exact W'|]. split; [exact G'|]. split; [discriminate|].
          intros HV' M0 <-. destruct (HI HV') as [I A1]. split; [exact I|]. destruct (matmul (content m P) M); exact A1. }
      destruct K as (r & m' & E & W' & G' & HQ & HI). exists r, m'. split; [exact E|]. split; [exact W'|]. split; [exact G'|]. split; [exact HQ|].
      intros HV'. specialize (HR HV'). destruct x as [M0|]; [|destruct HR]. cbn [orel] in HR. cbn [times]. now apply HI.
    - exists (Ok (Some X)), m. split; [reflexivity|]. split; [exact W|]. split; [apply grow_refl|]. split.
      + intros o Eo. injection Eo as <-. exists X. auto.
      + intros HV'. split; [auto|]. specialize (HR HV'). destruct x as [M0|]; [destruct HR|]. cbn. auto.
  Qed.
  Lemma runs_times_remembered (V : Prop) run X m x M : wf m -> (V -> inv m) -> (V -> orel m run x) -> (V -> content m X = M) ->
    runs V (times_remembered run X) m (osome (mine m)) (times x M) orel.
  Proof.
    intros W HV HR HC. destruct run as [P|]; cbn [times_remembered].
    - assert (T : runs V (times_new (Some P) X) m (osome (mine m)) (times x M) orel).
      { assert (K : exists r m', (arr* Q <- mulA P X ;; aret (Some Q)) m = (r, m') /\ wf m' /\ grow m m' /\ (forall o, r = Ok o -> osome (mine m) m' o) /\
        (V -> forall M0, content m P = M0 -> inv m' /\ agree (orel m') r (let* Q := matmul M0 M in Ok (Some Q)))).
        { destruct (runs_mul V P X m (content m P) M W HV (fun _ => eq_refl) HC) as (r & m' & E & W' & G' & HQ & HI).
          unfold abind. rewrite E. destruct r as [Q|e].
          - exists (Ok (Some Q)), m'. split; [reflexivity|]. split; [exact W'|]. split; [exact G'|]. split.
            + intros o Eo. injection Eo as <-. exists Q. auto.
            + intros HV' M0 <-. destruct (HI HV') as [I A1]. split; [exact I|]. destruct (matmul (content m P) M); [exact A1|exact A1].
          - exists (Raise e), m'. split; [reflexivity|]. split; [exact W'|]. split; [exact G'|]. split; [discriminate|].
            intros HV' M0 <-. destruct (HI HV') as [I A1]. split; [exact I|]. destruct (matmul (content m P) M); exact A1. }
        destruct K as (r & m' & E & W' & G' & HQ & HI). exists r, m'. split; [exact E|]. split; [exact W'|]. split; [exact G'|]. split; [exact HQ|].
        intros HV'. specialize (HR HV'). destruct x as [M0|]; [|destruct HR]. cbn [orel] in HR. cbn [times]. now apply HI. }
      exact T.
    - destruct (runs_copy V X m M W HV HC) as (r & m' & E & W' & G' & HQ & HI). unfold runs, abind. rewrite E. destruct r as [Q|e].
      + exists (Ok (Some Q)), m'. split; [reflexivity|]. split; [exact W'|]. split; [exact G'|]. split.
        * intros o Eo. injection Eo as <-. exists Q. auto.
        * intros HV'. destruct (HI HV') as [I A1]. split; [exact I|]. specialize (HR HV'). destruct x as [M0|]; [destruct HR|]. exact A1.
      + exists (Raise e), m'. split; [reflexivity|]. split; [exact W'|]. split; [exact G'|]. split; [discriminate|].
        intros HV'. destruct (HI HV') as [I A1]. destruct A1.
  Qed.

  Lemma osome_olt m0 m o : osome (mine m0) m o -> olt m o.
  Proof. intros (a & -> & B & _) P E. injection E as <-. lia. Qed.

  (** The result of the loop. *)
  Definition looplt (m : amem) (st : option nat * list rsym * list osym) : Prop := olt m (fst (fst st)).
  Definition looprel (m : amem) (st : option nat * list rsym * list osym) (x : option (mat R) * list rsym * list osym) : Prop :=
    orel m (fst (fst st)) (fst (fst x)) /\ snd (fst st) = snd (fst x) /\ snd st = snd x.

  Lemma runs_loop a ops : forall (V : Prop) m run nu sph x, wf m -> olt m run -> (V -> inv m) -> (V -> orel m run x) ->
    runs V (prod_loopA RP CG lam a ops run nu sph) m looplt (answer CG (prod_loopC RP lam a ops x nu sph)) looprel.
  Proof.
    induction ops as [|op ops IH]; intros V m run nu sph x W LR HV HR.
    - cbn [prod_loopA prod_loopC answer]. apply runs_ret; auto. intros HV'. split; [exact (HR HV')|auto].
    - assert (PE : runs V (if nonempty nu || nonempty sph then arr* T <- RepXspace_TwinA RP CG lam nu sph a ;; times_new run T else aret run) m
        olt (answer CG (if nonempty nu || nonempty sph then py* T <- RepXspace_TwinC RP lam nu sph a ;; Done (times x T) else Done (Ok x))) orel).
      { destruct (nonempty nu || nonempty sph).
        - rewrite answer_andthen, answer_Twin. eapply runs_bind; [|exact mem_no_inh|].
          + apply (runs_weaken (inv m) V _ _ (mine m) (mine m) _ _ holds holds (new_Twin nu sph a m W) HV); auto.
          + intros T m1 M W1 G1 MT. cbn [answer].
            apply (runs_weaken (V /\ inv m1 /\ holds m1 T M) _ _ _ (osome (mine m)) olt (times x M) _ orel orel); auto.
            * apply runs_times_new; auto; [tauto| |].
              -- intros (X & _). apply (orel_grow m); auto.
              -- intros (_ & _ & X). exact X.
            * intros m2 o _. apply osome_olt.
        - apply runs_ret; auto. }
      assert (F : forall n, runs V
          (arr* run' <- (if nonempty nu || nonempty sph then arr* T <- RepXspace_TwinA RP CG lam nu sph a ;; times_new run T else aret run) ;;
           arr* X <- callA RP CG lam n a ;; arr* run'' <- times_remembered run' X ;; prod_loopA RP CG lam a ops run'' [] []) m looplt
          (answer CG (py* run' <- (if nonempty nu || nonempty sph
                       then py* T <- RepXspace_TwinC RP lam nu sph a ;; Done (times x T)
                       else Done (Ok x)) ;;
          py* X <- callC RP lam n a ;;
          py* run'' <- Done (times run' X) ;;
          prod_loopC RP lam a ops run'' [] [])) looprel).
      { intros n. rewrite answer_andthen. eapply runs_bind; [exact PE|constructor; exact None|].
        intros run' m1 x1 W1 G1 L1. rewrite answer_andthen, answer_call. eapply runs_bind; [|exact mem_no_inh|].
        - apply (runs_weaken (inv m1) _ _ _ (kept (KFull n a)) (kept (KFull n a)) (xcompute RP CG lam n a) _ holds holds); auto; [now apply runs_call|tauto].
        - intros X m2 M W2 G2 KX. rewrite answer_andthen. cbn [answer]. eapply runs_bind; [|constructor; exact None|].
          + apply (runs_times_remembered _ run' X m2 x1 M W2).
            * tauto.
            * intros ((_ & _ & Y) & _). apply (orel_grow m1); auto.
            * intros (_ & _ & Y). exact Y.
          + intros run'' m3 x3 W3 G3 O3. apply IH; auto.
            * now apply (osome_olt m2).
            * tauto.
            * intros (_ & _ & Y). exact Y. }
      cbn [prod_loopA prod_loopC]. cbn zeta. destruct op as [s|h| | | | | |]; try (now apply IH); try apply F.
      destruct s; try (now apply IH).
      rewrite answer_andthen. eapply runs_bind; [exact PE|constructor; exact None|].
      intros run' m1 x1 W1 G1 L1. cbn [answer]. apply runs_raise; tauto.
  Qed.

  Lemma new_word w a : new_array (RepXspace_ProdA RP CG lam w a) (answer CG (RepXspace_ProdC RP lam w a)).
  Proof.
    intros m W. unfold RepXspace_ProdA, RepXspace_ProdC. rewrite answer_andthen. cbn [answer].
    apply runs_lift_bind; auto. intros _ _. rewrite answer_andthen. eapply runs_bind.
    - apply (runs_loop a w (inv m) m None [] [] None W); [intros P; discriminate|auto|cbn; auto].
    - constructor. exact (None, [], []).
    - intros [[run nu] sph] m1 [[x nu'] sph'] W1 G1 L1. unfold looplt in L1. unfold looprel. cbn [fst snd] in *.
      assert (H : runs (inv m /\ inv m1 /\ orel m1 run x) (arr* T <- RepXspace_TwinA RP CG lam nu sph a ;; arr* run' <- times_new run T ;;
          match run' with Some P => aret P | None => alift (Raise AssertionError) end) m1 (mine m)
          (answer CG (py* T <- RepXspace_TwinC RP lam nu sph a ;; py* run' <- Done (times x T) ;;
            match run' with Some P => Done (Ok P) | None => Done (Raise AssertionError) end)) holds).
      { rewrite answer_andthen, answer_Twin. eapply runs_bind; [|exact mem_no_inh|].
        - apply (runs_weaken (inv m1) _ _ _ (mine m1) (mine m) (RepXspace_Twin RP CG lam nu sph a) _ holds holds); auto; [now apply new_Twin|tauto|].
          intros m2 T _. now apply mine_earlier.
        - intros T m2 M W2 G2 MT. rewrite answer_andthen. cbn [answer]. eapply runs_bind; [|constructor; exact None|].
          + apply (runs_times_new _ m run T m2 x M W2); auto; [now apply (grow_trans _ m1)|tauto| |].
            * intros ((_ & _ & Y) & _). apply (orel_grow m1); auto.
            * intros (_ & _ & Y). exact Y.
          + intros o m3 y W3 G3 (P & -> & MP).
            set (V := (_ /\ inv m3 /\ _)).
            assert (HV : V -> exists M1, y = Some M1 /\ content m3 P = M1).
            { intros (_ & _ & Y). destruct y as [M1|]; [|destruct Y]. exists M1. auto. }
            exists (Ok P), m3. split; [reflexivity|]. split; [exact W3|]. split; [apply grow_refl|].
            split; [intros b E; injection E as <-; exact MP|]. intros X. destruct (HV X) as (M1 & -> & Y). split; [apply X|]. exact Y. }
      destruct H as (r & m2 & E & W2 & G2 & HQ & HI). exists r, m2. split; [exact E|]. split; [exact W2|]. split; [exact G2|]. split; [exact HQ|].
      intros (I & I1 & R1 & <- & <-). apply HI. auto.
  Qed.

  Lemma new_Term t X a : new_array (RepXspace_TermA RP CG lam t X a) (answer CG (RepXspace_TermC RP lam t X a)).
  Proof.
    intros m W. unfold RepXspace_TermA, RepXspace_TermC. rewrite answer_andthen.
    eapply runs_bind; [now apply new_word|exact mem_no_inh|]. intros b m1 M W1 G1 Mb. destruct (fst t) as [c|f].
    - cbn [answer]. apply (runs_weaken (inv m /\ inv m1 /\ holds m1 b M) _ _ _ (mine m1) (mine m) (Ok (mscale c M)) _ holds holds); auto.
      + apply runs_scale; [exact W1|tauto|]. intros (_ & _ & Y). exact Y.
      + intros m2 d _. now apply mine_earlier.
    - cbn zeta. set (cs := map _ X).
      assert (H : runs (inv m /\ inv m1 /\ holds m1 b M)
        (if zlen cs =? ncols (content m1 b) then alloc (mkMat (nrows (content m1 b)) (ncols (content m1 b)) (fun i j => (nth (Z.to_nat j) cs 0 * ent (content m1 b) i j)%R))
         else alift (Raise ValueError)) m1 (mine m)
        (if zlen cs =? ncols (content m1 b) then Ok (mkMat (nrows (content m1 b)) (ncols (content m1 b)) (fun i j => (nth (Z.to_nat j) cs 0 * ent (content m1 b) i j)%R))
         else Raise ValueError) holds).
      { destruct (_ =? _); [|apply runs_raise; tauto].
        apply (runs_weaken (inv m /\ inv m1 /\ holds m1 b M) _ _ _ (mine m1) (mine m) (Ok (mkMat (nrows (content m1 b)) (ncols (content m1 b)) (fun i j => (nth (Z.to_nat j) cs 0 * ent (content m1 b) i j)%R))) _ holds holds); auto.
        - apply runs_alloc; tauto.
        - intros m2 d _. now apply mine_earlier. }
      destruct H as (r & m2 & E & W2 & G2 & HQ & HI). exists r, m2. split; [exact E|]. split; [exact W2|]. split; [exact G2|]. split; [exact HQ|].
      intros HV. destruct (HI HV) as [I2 A2]. split; [exact I2|]. destruct HV as (_ & _ & Y). unfold holds in Y. rewrite Y in A2.
      destruct (zlen cs =? ncols M); cbn [answer]; exact A2.
  Qed.

  Lemma runs_terms ts X a : forall (V : Prop) m0 m b M, wf m -> grow m0 m -> mine m0 m b -> (V -> inv m) -> (V -> content m b = M) ->
    runs V (terms_loopA RP CG lam ts X a b) m (mine m0) (answer CG (terms_loopC RP lam ts X a M)) holds.
  Proof.
    induction ts as [|t ts IH]; intros V m0 m b M W G Mb HV HC; cbn [terms_loopA terms_loopC].
    - cbn [answer]. now apply runs_ret.
    - rewrite answer_andthen. eapply runs_bind; [|exact mem_no_inh|].
      + apply (runs_weaken (inv m) V _ _ (mine m) (mine m) (answer CG (RepXspace_TermC RP lam t X a)) _ holds holds); auto. now apply new_Term.
      + intros c m1 N W1 G1 Mc.
        change (answer CG (terms_loopC RP lam ts X a (madd M N))) with (let* K := Ok (madd M N) in answer CG (terms_loopC RP lam ts X a K)).
        eapply runs_bind; [|exact mem_no_inh|].
        * apply (runs_add _ b c m1 M N W1); [tauto| |].
          -- intros (HV' & _). rewrite (grow_content m m1); auto. apply Mb.
          -- intros (_ & _ & Y). exact Y.
        * intros d m2 K W2 G2 Md. apply IH; auto.
          -- apply (grow_trans _ m); [exact G|]. now apply (grow_trans _ m1).
          -- apply (mine_earlier m0 m1); [now apply (grow_trans _ m)|exact Md].
          -- tauto.
          -- intros (_ & _ & Y). exact Y.
  Qed.

  Lemma new_Xspace op an lb n0 n1 v0 v1 L Lm :
    new_array (RepXspaceA RP CG lam op an lb n0 n1 v0 v1 L Lm) (answer CG (RepXspaceC RP lam op an lb n0 n1 v0 v1 L Lm)).
  Proof.
    unfold RepXspaceA, RepXspaceC. set (LM := match Lm with None => L | Some l => l end). set (a := mkXA an lb n0 n1 v0 v1 L LM). cbn zeta.
    intros m W. rewrite answer_andthen. cbn [answer]. apply runs_lift_bind; auto. intros _ _. rewrite answer_andthen.
    set (B := match op with [] => _ | _ => _ end). set (C := match op with [] => _ | _ => _ end).
    assert (N : new_array B (answer CG C)).
    { unfold B, C. clear B C m W. intros m W. destruct op as [|t ts].
      - cbn [answer]. apply runs_lift_bind; auto. intros d _. now apply runs_alloc.
      - rewrite answer_andthen. cbn [answer]. apply runs_lift_bind; auto. intros X _.
        rewrite answer_andthen. eapply runs_bind; [now apply new_Term|exact mem_no_inh|].
        intros b m1 M W1 G1 Mb. apply runs_terms; auto; [tauto|]. intros (_ & _ & Y). exact Y. }
    apply (new_clear any_key) in N. specialize (N m W). cbn [answer].
    replace (let* x := answer CG C in Ok x) with (answer CG C) by (now destruct (answer CG C)). exact N.
  Qed.
End Facts.
