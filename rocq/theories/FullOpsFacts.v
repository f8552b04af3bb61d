(** Facts about the block assembly loops of FullOps.v. *)

From Coq Require Import Reals Lra.
From Coq Require Import Lia ZifyBool ZifyNat.
From Verif Require Import PyBase PyFacts Compat SphericalSpec Spherical SphericalFacts PropsSpherical Matrix RadialME
  RadialMEFacts FullLabels RadialOps Operators FullOps PropsHarmonics.
Open Scope Z_scope.
Ltac Zify.zify_post_hook ::= Z.div_mod_to_equations.

(** ** Loops *)
Lemma for_ext {X S} (l : list X) (f g : X -> S -> res S) :
  (forall x s, In x l -> f x s = g x s) -> forall s, for_ l f s = for_ l g s.
Proof.
  induction l as [|x l IH]; intros H s; cbn [for_]; [reflexivity|].
  rewrite H by now left. destruct (g x s); cbn [bind]; [|reflexivity]. apply IH. intros. apply H. now right.
Qed.

Lemma for_app {X S} (l1 l2 : list X) (f : X -> S -> res S) s :
  for_ (l1 ++ l2) f s = let* s' := for_ l1 f s in for_ l2 f s'.
Proof.
  revert s. induction l1 as [|x l IH]; intros s; cbn [app for_ bind]; [reflexivity|].
  destruct (f x s); cbn [bind]; [apply IH|reflexivity].
Qed.

Lemma for_map {X Y S} (g : Y -> X) (l : list Y) (f : X -> S -> res S) s :
  for_ (map g l) f s = for_ l (fun y => f (g y)) s.
Proof. revert s. induction l as [|x l IH]; intros s; cbn [map for_]; [reflexivity|]. destruct (f (g x) s); cbn; auto. Qed.

Lemma for_flat_map {X Y S} (g : X -> list Y) (l : list X) (f : Y -> S -> res S) s :
  for_ (flat_map g l) f s = for_ l (fun x => for_ (g x) f) s.
Proof.
  revert s. induction l as [|x l IH]; intros s; cbn [flat_map for_]; [reflexivity|].
  rewrite for_app. destruct (for_ (g x) f s); cbn [bind]; [apply IH|reflexivity].
Qed.

Lemma for_pull {X S A} (m : res A) (l : list X) (f : A -> X -> S -> res S) s : l <> [] ->
  (let* a := m in for_ l (f a) s) = for_ l (fun x s => let* a := m in f a x s) s.
Proof.
  intros H. destruct m as [a|e]; cbn [bind]; [reflexivity|]. destruct l; [easy|]. reflexivity.
Qed.

Lemma py_range_shift n : 0 <= n -> py_range 1 (n + 1) = map (fun i => i + 1) (py_range 0 n).
Proof.
  intros H. unfold py_range. rewrite map_map. replace (n + 1 - 1) with (n - 0) by lia.
  apply map_ext. intros. lia.
Qed.

(** All pairs (j, i), j slowest. *)
Definition pairs (n : Z) : list (Z * Z) :=
  flat_map (fun j => map (fun i => (j, i)) (py_range 0 n)) (py_range 0 n).

Lemma pairs_In n j i : In (j, i) (pairs n) <-> 0 <= j < n /\ 0 <= i < n.
Proof.
  unfold pairs. rewrite in_flat_map. split.
  - intros (x & Hx & H). apply in_map_iff in H. destruct H as (y & E & Hy). injection E as -> ->.
    apply py_range_In in Hx. apply py_range_In in Hy. lia.
  - intros [A B]. exists j. rewrite py_range_In. split; [lia|]. apply in_map_iff. exists i.
    rewrite py_range_In. split; [reflexivity|lia].
Qed.

Lemma NoDup_flat_map_key {A B} (key : B -> A) (f : A -> list B) l :
  NoDup l -> (forall x, In x l -> NoDup (f x)) -> (forall x y, In x l -> In y (f x) -> key y = x) ->
  NoDup (flat_map f l).
Proof.
  induction 1 as [|x l Hx Hl IH]; intros H1 H2; cbn [flat_map]; [constructor|].
  assert (G : forall z, In z (f x) -> ~ In z (flat_map f l)).
  { intros z Hz C. apply in_flat_map in C. destruct C as (y & Hy & C).
    rewrite <- (H2 x z) in Hx by (cbn; auto). rewrite <- (H2 y z) in Hy by (cbn; auto). contradiction. }
  specialize (H1 x (or_introl eq_refl)) as N. revert G N. generalize (f x) as k.
  induction k as [|z k IHk]; intros G N; cbn [app].
  - apply IH; intros; [apply H1|apply (H2 x0)]; cbn; auto.
  - inversion N; subst. constructor.
    + rewrite in_app_iff. intros [C|C]; [contradiction|]. apply (G z); [now left|exact C].
    + apply IHk; [|assumption]. intros w Hw. apply G. now right.
Qed.

Lemma pairs_NoDup n : NoDup (pairs n).
Proof.
  unfold pairs. apply (NoDup_flat_map_key fst).
  - apply py_range_NoDup.
  - intros j _. apply FinFun.Injective_map_NoDup; [|apply py_range_NoDup]. intros a b E. congruence.
  - intros j p _ Hp. apply in_map_iff in Hp. destruct Hp as (y & <- & _). reflexivity.
Qed.

Lemma for_pairs {S} (f : Z -> Z -> S -> res S) n s : 0 <= n ->
  for_ (py_range 1 (n + 1)) (fun j2 s => for_ (py_range 1 (n + 1)) (fun i2 s => f (j2 - 1) (i2 - 1) s) s) s
  = for_ (pairs n) (fun p s => f (fst p) (snd p) s) s.
Proof.
  intros H. unfold pairs. rewrite for_flat_map, py_range_shift, for_map by assumption. apply for_ext.
  intros j s' _. rewrite !for_map. apply for_ext. intros i s'' _. cbn [fst snd].
  now rewrite !Z.add_simpl_r.
Qed.

(** ** Assembly of blocks *)
Definition sgn (neg : bool) (k : Z) : R := if neg then sg k else 1%R.

Section Asm.
  Variables n rd : Z.
  Hypothesis Hn : 0 <= n.
  Hypothesis Hrd : 0 < rd.
  Variable neg : bool.
  Variable blk : Z -> Z -> res (option (mat R)).

  Definition asm_step (p : Z * Z) (D : mat R) : res (mat R) :=
    let* o := blk (fst p) (snd p) in
    match o with
    | None => Ok D
    | Some m =>
        let* D' := slice_set D (snd p * rd) (snd p * rd + rd) (fst p * rd) (fst p * rd + rd) m in
        if neg then Ok (mscale (-1) D') else Ok D'
    end.

  Lemma block_unique a b i x : 0 <= x < rd -> 0 <= i ->
    a * rd <= i -> i < a * rd + rd -> i = b * rd + x -> a = b.
  Proof. intros. nia. Qed.

  Lemma slice_set_block D m j i : square (n * rd) D -> 0 <= j < n -> 0 <= i < n ->
    (square rd m -> exists D', slice_set D (i * rd) (i * rd + rd) (j * rd) (j * rd + rd) m = Ok D') /\
    forall D', slice_set D (i * rd) (i * rd + rd) (j * rd) (j * rd + rd) m = Ok D' ->
      square rd m /\ square (n * rd) D' /\
      forall j' i' x y, 0 <= j' < n -> 0 <= i' < n -> 0 <= x < rd -> 0 <= y < rd ->
        ent D' (i' * rd + x) (j' * rd + y)
        = if (j' =? j) && (i' =? i) then ent m x y else ent D (i' * rd + x) (j' * rd + y).
  Proof.
    intros [A B] Hj Hi. unfold slice_set. rewrite A, B.
    assert (Bi : forall k, 0 <= k < n -> slice_bound (n * rd) (k * rd) = k * rd).
    { intros k Hk. unfold slice_bound. destruct (k * rd <? 0) eqn:E; nia. }
    assert (Bj : forall k, 0 <= k < n -> slice_bound (n * rd) (k * rd + rd) = k * rd + rd).
    { intros k Hk. unfold slice_bound. destruct (k * rd + rd <? 0) eqn:E; nia. }
    rewrite !Bi, !Bj by assumption.
    replace (Z.max 0 (i * rd + rd - i * rd)) with rd by lia.
    replace (Z.max 0 (j * rd + rd - j * rd)) with rd by lia.
    split.
    - intros [C D1]. rewrite C, D1, !Z.eqb_refl. eexists. reflexivity.
    - intros D' E. destruct ((rd =? nrows m) && (rd =? ncols m)) eqn:S; [|discriminate].
      injection E as <-. split; [split; lia|]. split; [split; reflexivity|].
      intros j' i' x y Hj' Hi' Hx Hy. cbn [ent].
      destruct ((j' =? j) && (i' =? i)) eqn:E.
      + assert (j' = j) by lia. assert (i' = i) by lia. subst.
        replace ((i * rd <=? i * rd + x) && (i * rd + x <? i * rd + rd) && (j * rd <=? j * rd + y) &&
                 (j * rd + y <? j * rd + rd)) with true by lia.
        f_equal; lia.
      + destruct ((i * rd <=? i' * rd + x) && (i' * rd + x <? i * rd + rd) && (j * rd <=? j' * rd + y) &&
          (j' * rd + y <? j * rd + rd)) eqn:C; [|reflexivity].
        exfalso. assert (i = i') by (eapply (block_unique i i' (i' * rd + x) x); nia).
        assert (j = j') by (eapply (block_unique j j' (j' * rd + y) y); nia). lia.
  Qed.

  Definition visited (p : Z * Z) : bool :=
    match blk (fst p) (snd p) with Ok (Some _) => true | _ => false end.

  Definition good (p : Z * Z) : Prop :=
    exists o, blk (fst p) (snd p) = Ok o /\ match o with Some m => square rd m | None => True end.

  Definition inr (p : Z * Z) : Prop := 0 <= fst p < n /\ 0 <= snd p < n.

  Lemma asm_total ps : forall D, Forall inr ps -> square (n * rd) D -> Forall good ps ->
    exists D', for_ ps asm_step D = Ok D'.
  Proof.
    induction ps as [|[j i] ps IH]; intros D Hin HD HG; cbn [for_]; [eexists; reflexivity|].
    inversion Hin as [|? ? [Hj Hi] Hin']; subst. inversion HG as [|? ? (o & E & S) HG']; subst. cbn [fst snd] in *.
    unfold asm_step at 1. cbn [fst snd]. rewrite E. cbn [bind]. destruct o as [m|]; cbn [bind]; [|now apply IH].
    destruct (slice_set_block D m j i HD Hj Hi) as [T1 T2]. destruct (T1 S) as (D' & E').
    rewrite E'. destruct (T2 D' E') as (_ & SD & _). cbn [bind].
    destruct neg; cbn [bind]; apply IH; try assumption.
  Qed.

  Lemma asm_spec ps : forall D D', Forall inr ps -> NoDup ps -> square (n * rd) D ->
    for_ ps asm_step D = Ok D' ->
    square (n * rd) D' /\ Forall good ps /\
    (forall j i x y, 0 <= j < n -> 0 <= i < n -> 0 <= x < rd -> 0 <= y < rd ->
      (~ In (j, i) ps \/ visited (j, i) = false) ->
      ent D' (i * rd + x) (j * rd + y)
      = (sgn neg (zlen (filter visited ps)) * ent D (i * rd + x) (j * rd + y))%R) /\
    (forall k j i m x y, 0 <= x < rd -> 0 <= y < rd ->
      nth_error (filter visited ps) k = Some (j, i) -> blk j i = Ok (Some m) ->
      ent D' (i * rd + x) (j * rd + y)
      = (sgn neg (zlen (filter visited ps) - Z.of_nat k) * ent m x y)%R).
  Proof.
    induction ps as [|[j0 i0] ps IH]; intros D D' Hin ND HD E; cbn [for_] in E.
    - injection E as <-. split; [exact HD|]. split; [constructor|]. split.
      + intros. cbn [filter]. unfold zlen. cbn [length]. replace (sgn neg (Z.of_nat 0)) with 1%R; [ring|].
        unfold sgn. destruct neg; reflexivity.
      + intros k j i m x y _ _ C. destruct k; discriminate.
    - inversion Hin as [|? ? [Hj Hi] Hin']; subst. inversion ND as [|? ? N0 ND']; subst. cbn [fst snd] in *.
      apply bind_ok in E. destruct E as (D1 & E1 & E). unfold asm_step in E1. cbn [fst snd] in E1.
      apply bind_ok in E1. destruct E1 as (o & Eo & E1). destruct o as [m|].
      + assert (V : visited (j0, i0) = true) by (unfold visited; cbn [fst snd]; now rewrite Eo).
        apply bind_ok in E1. destruct E1 as (D0 & Es & E1).
        destruct (slice_set_block D m j0 i0 HD Hj Hi) as [_ T2]. destruct (T2 D0 Es) as (Sm & SD & Ent).
        assert (SD1 : square (n * rd) D1) by (destruct neg; injection E1 as <-; destruct SD; split; assumption).
        assert (Ent1 : forall j' i' x y, 0 <= j' < n -> 0 <= i' < n -> 0 <= x < rd -> 0 <= y < rd ->
          ent D1 (i' * rd + x) (j' * rd + y)
          = (sgn neg 1 * if (j' =? j0) && (i' =? i0) then ent m x y else ent D (i' * rd + x) (j' * rd + y))%R).
        { intros j' i' x y a b c d. rewrite <- Ent by assumption. unfold sgn. change (sg 1) with (-1)%R.
          destruct neg; injection E1 as <-; cbn [mscale ent]; ring. }
        destruct (IH D1 D' Hin' ND' SD1 E) as (S' & G' & U & W). split; [exact S'|].
        split; [constructor; [exists (Some m); split; assumption|exact G']|].
        cbn [filter]. rewrite V. rewrite zlen_cons.
        assert (Sg : forall k, (sgn neg k * sgn neg 1 = sgn neg (1 + k))%R).
        { intros k. unfold sgn. destruct neg; [|ring]. rewrite sg_add. ring. }
        split.
        * intros j i x y a b c d H. rewrite U; [|assumption..|].
          -- rewrite Ent1 by assumption. replace ((j =? j0) && (i =? i0)) with false.
             ++ rewrite <- Rmult_assoc, Sg. reflexivity.
             ++ destruct ((j =? j0) && (i =? i0)) eqn:Q; [|reflexivity]. assert (j = j0) by lia. assert (i = i0) by lia.
                subst. destruct H as [H|H]; [exfalso; apply H; now left|congruence].
          -- destruct H as [H|H]; [left; intros C; apply H; now right|now right].
        * intros k j i m' x y c d Hk Hb. destruct k as [|k]; cbn [nth_error] in Hk.
          -- injection Hk as <- <-. rewrite Eo in Hb. injection Hb as <-.
             rewrite U; [|assumption..|now left]. rewrite Ent1 by assumption. rewrite !Z.eqb_refl. cbn [andb].
             rewrite <- Rmult_assoc, Sg. do 2 f_equal. lia.
          -- rewrite (W k j i m') by assumption. do 2 f_equal. lia.
      + assert (V : visited (j0, i0) = false) by (unfold visited; cbn [fst snd]; now rewrite Eo).
        injection E1 as <-. destruct (IH D D' Hin' ND' HD E) as (S' & G' & U & W). split; [exact S'|].
        split; [constructor; [exists None; split; [exact Eo|exact I]|exact G']|].
        cbn [filter]. rewrite V. split; [|exact W].
        intros j i x y a b c d H. apply U; try assumption.
        destruct H as [H|H]; [left; intros C; apply H; now right|now right].
  Qed.

  (** The whole assembly, from the zero matrix. *)
  Definition asm : res (mat R) := for_ (pairs n) asm_step (zeros (n * rd)).

  Lemma pairs_inr : Forall inr (pairs n).
  Proof. apply Forall_forall. intros [j i] H. apply pairs_In in H. exact H. Qed.

  Lemma asm_value D : asm = Ok D ->
    square (n * rd) D /\
    (forall j i, 0 <= j < n -> 0 <= i < n -> good (j, i)) /\
    (forall j i x y, 0 <= j < n -> 0 <= i < n -> 0 <= x < rd -> 0 <= y < rd ->
       blk j i = Ok None -> ent D (i * rd + x) (j * rd + y) = 0%R) /\
    (forall k j i m x y, 0 <= x < rd -> 0 <= y < rd ->
       nth_error (filter visited (pairs n)) k = Some (j, i) -> blk j i = Ok (Some m) ->
       ent D (i * rd + x) (j * rd + y)
       = (sgn neg (zlen (filter visited (pairs n)) - Z.of_nat k) * ent m x y)%R).
  Proof.
    intros E. destruct (asm_spec (pairs n) (zeros (n * rd)) D pairs_inr (pairs_NoDup n)) as (A & B & C & F).
    - split; reflexivity.
    - exact E.
    - split; [exact A|]. split.
      { rewrite Forall_forall in B. intros j i Hj Hi. apply B. now apply pairs_In. }
      split; [|exact F].
      intros j i x y Hj Hi Hx Hy H. rewrite C; try assumption.
      + cbn [zeros ent]. ring.
      + right. unfold visited. cbn [fst snd]. now rewrite H.
  Qed.

  Lemma asm_defined : (forall j i, 0 <= j < n -> 0 <= i < n -> good (j, i)) -> exists D, asm = Ok D.
  Proof.
    intros H. apply asm_total; [apply pairs_inr|split; reflexivity|].
    apply Forall_forall. intros [j i] Hp. apply pairs_In in Hp. now apply H.
  Qed.
End Asm.

Lemma asm_value_pos n rd blk D : 0 <= n -> 0 < rd -> asm n rd false blk = Ok D ->
  square (n * rd) D /\
  (forall j i, 0 <= j < n -> 0 <= i < n -> good rd blk (j, i)) /\
  (forall j i x y, 0 <= j < n -> 0 <= i < n -> 0 <= x < rd -> 0 <= y < rd ->
     ent D (i * rd + x) (j * rd + y) = match blk j i with Ok (Some m) => ent m x y | _ => 0%R end).
Proof.
  intros Hn Hrd E. destruct (asm_value n rd Hn Hrd false blk D E) as (A & B & C & F).
  split; [exact A|]. split; [exact B|]. intros j i x y Hj Hi Hx Hy.
  destruct (B j i Hj Hi) as (o & Eo & _). cbn [fst snd] in Eo. rewrite Eo. destruct o as [m|]; [|now apply C].
  assert (V : In (j, i) (filter (visited blk) (pairs n))).
  { apply filter_In. split; [now apply pairs_In|]. unfold visited. cbn [fst snd]. now rewrite Eo. }
  apply In_nth_error in V. destruct V as (k & V). rewrite (F k j i m) by assumption. cbn [sgn]. ring.
Qed.
