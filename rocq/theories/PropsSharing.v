(** C75: radial matrices as shared arrays. *)

From Coq Require Import Reals Lra Lia ZifyBool ZifyNat.
From Verif Require Import PyBase Compat Matrix RadialOps RadialME FullOps Sharing SharingFacts SharingValues.
Open Scope Z_scope.

(** ** Specification *)

Section Spec.
  Variable Gam : R -> R.
  Variables Matrix_sqrt Matrix_sqrtInv : mat R -> res (mat R).

  (** What is seen of an event that is the whole session. *)
  Definition alone (e : event) : seen := fst (fst (step Gam Matrix_sqrt Matrix_sqrtInv e fresh_mem [])).
End Spec.

(** Seen: the matrix that the function of RadialOps.v or FullOps.v computes, or
    an exception if that function raises one. *)
Definition seen_as (o : seen) (v : res (mat R)) : Prop :=
  match o, v with
  | Returned M, Ok N => mat_eq M N
  | Raised _, Raise _ => True
  | _, _ => False
  end.

(** Which of the arrays returned so far belong to the caller ([mine]), and
    whether a call has been left unfinished ([dirty]):
    - what [RepRadial_LC] returns belongs to the caller;
    - what [RepRadial_Prod] returns belongs to the caller, unless [dirty];
    - what a remembering function returns does not;
    - [dirty] begins with a call of [RepRadial_LC] or [RepXspace] that raises or
      a direct call of a remembering function, and ends with a call of
      [RepXspace] that returns; then everything belongs to the caller. *)
Record ownership := mkOwn { dirty : bool; mine : list bool }.
Definition at_start : ownership := mkOwn false [].
Definition after (e : event) (o : seen) (w : ownership) : ownership :=
  match e, o with
  | CallProd _ _ _ _ _ _ _, Returned _ => mkOwn (dirty w) (mine w ++ [negb (dirty w)])
  | CallLC _ _ _ _ _ _ _, Returned _ => mkOwn (dirty w) (mine w ++ [true])
  | CallLC _ _ _ _ _ _ _, _ => mkOwn true (mine w)
  | CallXspace _ _, Nothing => mkOwn false (map (fun _ => true) (mine w))
  | CallXspace _ _, _ => mkOwn true (mine w)
  | CallRemembering _, Returned _ => mkOwn true (mine w ++ [false])
  | CallRemembering _, _ => mkOwn true (mine w)
  | _, _ => w
  end.
(** The caller changes only arrays that belong to them. *)
Definition permitted (e : event) (w : ownership) : Prop :=
  match e with Modify i _ => nth_error (mine w) i <> Some false | _ => True end.
Fixpoint careful (w : ownership) (es : list event) (os : list seen) : Prop :=
  match es, os with
  | e :: es', o :: os' => permitted e w /\ careful (after e o w) es' os'
  | _, _ => True
  end.
Definition is_call (e : event) : Prop := match e with Modify _ _ => False | _ => True end.
(** The matrices returned, in order. *)
Fixpoint returned (os : list seen) : list (mat R) :=
  match os with [] => [] | Returned M :: os' => M :: returned os' | _ :: os' => returned os' end.

Section Proofs.
  Variable Gam : R -> R.
  Variables Matrix_sqrt Matrix_sqrtInv : mat R -> res (mat R).
  Let step := step Gam Matrix_sqrt Matrix_sqrtInv.
  Let session := session Gam Matrix_sqrt Matrix_sqrtInv.
  Let alone := alone Gam Matrix_sqrt Matrix_sqrtInv.
  Let coherent := coherent Gam Matrix_sqrt Matrix_sqrtInv.

  Definition obs (v : res (mat R)) : seen := match v with Ok M => Returned M | Raise e => Raised e end.

  Lemma returning_obs m f v held : gives Gam Matrix_sqrt Matrix_sqrtInv (f m) v -> fst (fst (returning f m held)) = obs v.
  Proof.
    intros [_ H]. unfold returning. destruct (f m) as [[r|e] m'], v as [M|e']; cbn [fst snd] in *; try easy.
    - destruct H as [_ ->]. reflexivity.
    - now subst.
  Qed.
  Lemma yields_gives m f v : yields Gam Matrix_sqrt Matrix_sqrtInv reps m f v -> gives Gam Matrix_sqrt Matrix_sqrtInv (f m) v.
  Proof. intros (_ & H). exact H. Qed.
  Lemma returning_same m f v held : (forall m, coherent m -> gives Gam Matrix_sqrt Matrix_sqrtInv (f m) v) -> coherent m ->
    fst (fst (returning f m held)) = fst (fst (returning f fresh_mem [])).
  Proof. intros H C. rewrite !(returning_obs _ _ v); [reflexivity|apply H, coherent_fresh|now apply H]. Qed.

  Record inv (w : ownership) (m : mem) (held : list ref) : Prop := mkInv {
    inv_coh : coherent m;
    inv_clean : dirty w = false -> forall k, top k = true -> tab m k = None;
    inv_held : Forall2 (fun r b => (base r < length (arrays m))%nat /\ (b = true -> ~ owned m (base r))) held (mine w) }.

  Lemma held_later u m m' held l : frame u m m' ->
    Forall2 (fun r (b : bool) => (base r < length (arrays m))%nat /\ (b = true -> ~ owned m (base r))) held l ->
    Forall2 (fun r (b : bool) => (base r < length (arrays m'))%nat /\ (b = true -> ~ owned m' (base r))) held l.
  Proof.
    intros F H. pose proof (ext_len _ _ (fr_ext _ _ _ F)). induction H as [|r b held l [L N] H IH]; constructor; [|assumption].
    split; [lia|]. intros Hb O. destruct (fr_own _ _ _ F _ O); [now apply N|lia].
  Qed.

  Lemma inv_step w m held e : inv w m held -> permitted e w ->
    let '(o, m', held') := step e m held in o = alone e /\ inv (after e o w) m' held'.
  Proof.
    intros [C D H] P. destruct e as [ops a l v n0 n1 lap|ops a l v n0 n1 lap|calls done|k|i X]; unfold step; cbn [Sharing.step].
    - (* RepRadial_Prod *)
      assert (G : forall m, coherent m -> gives Gam Matrix_sqrt Matrix_sqrtInv (RepRadial_ProdH Gam Matrix_sqrt Matrix_sqrtInv ops a l v n0 n1 lap m)
                              (Prod_commonV Gam Matrix_sqrt Matrix_sqrtInv ops a l v n0 n1 lap)).
      { intros m0 C0. now apply yields_gives, y_Prod. }
      pose proof (returning_same m _ _ held G C) as E.
      destruct (okm_Prod Gam Matrix_sqrt Matrix_sqrtInv m ops a l v n0 n1 lap) as [F Fr].
      destruct (G m C) as [C' V].
      unfold returning in E at 1. unfold returning.
      destruct (RepRadial_ProdH Gam Matrix_sqrt Matrix_sqrtInv ops a l v n0 n1 lap m) as [[r|x] m'] eqn:ER; cbn [fst snd] in *.
      + split; [exact E|]. cbn [after].
        assert (D' : dirty w = false -> forall k, top k = true -> tab m' k = None).
        { intros Hd k Hk. rewrite (fr_left _ _ _ F) by assumption. now apply D. }
        split; cbn [dirty mine]; [exact C'|exact D'|]. apply Forall2_app; [now apply (held_later _ _ _ _ _ F)|].
        constructor; [|constructor]. destruct (Prod_commonV _ _ _ ops a l v n0 n1 lap) as [M|]; [|easy]. split; [apply V|].
        intros Hd. apply Bool.negb_true_iff in Hd. intros (k & r' & Ek & _).
        assert (Hk : top k = true).
        { change (RepRadial_ProdH Gam Matrix_sqrt Matrix_sqrtInv ops a l v n0 n1 lap m) with
            (match RepRadial_Prod_commonH Gam Matrix_sqrt Matrix_sqrtInv ops a l v n0 n1 lap m with
             | (Ok r, m') => (Ok r, snd (forget cleared_by_Prod m')) | (Raise e, m') => (Raise e, m') end) in ER.
          destruct (RepRadial_Prod_commonH _ _ _ ops a l v n0 n1 lap m) as [[r0|x0] m0]; [|discriminate].
          injection ER as <- <-. destruct k; try reflexivity; discriminate. }
        now rewrite (D' Hd k Hk) in Ek.
      + split; [exact E|]. split; [exact C'| |now apply (held_later _ _ _ _ _ F)].
        intros Hd k Hk. rewrite (fr_left _ _ _ F) by assumption. now apply D.
    - (* RepRadial_LC *)
      assert (G : forall m, coherent m -> gives Gam Matrix_sqrt Matrix_sqrtInv (RepRadial_LCH Gam Matrix_sqrt Matrix_sqrtInv ops a l v n0 n1 lap m)
                              (LCV Gam Matrix_sqrt Matrix_sqrtInv ops a l v n0 n1 lap)).
      { intros m0 C0. now apply g_LC. }
      pose proof (returning_same m _ _ held G C) as E.
      destruct (okp_LC Gam Matrix_sqrt Matrix_sqrtInv m ops a l v n0 n1 lap) as [F Fr].
      destruct (g_LC Gam Matrix_sqrt Matrix_sqrtInv m ops a l v n0 n1 lap C) as [[C' V] N].
      unfold returning in E at 1. unfold returning.
      destruct (RepRadial_LCH Gam Matrix_sqrt Matrix_sqrtInv ops a l v n0 n1 lap m) as [[r|x] m'] eqn:ER; cbn [fst snd] in *.
      + split; [exact E|]. cbn [after]. split; cbn [dirty mine]; [exact C'| |].
        * intros Hd k Hk. destruct k; try discriminate Hk.
          -- change (RepRadial_LCH Gam Matrix_sqrt Matrix_sqrtInv ops a l v n0 n1 lap m) with
               (match RepRadial_LC_commonH Gam Matrix_sqrt Matrix_sqrtInv ops a l v n0 n1 lap m with
                | (Ok r, m') => (Ok r, snd (forget cleared_by_LC m')) | (Raise e, m') => (Raise e, m') end) in ER.
             destruct (RepRadial_LC_commonH _ _ _ ops a l v n0 n1 lap m) as [[r0|x0] m0]; [|discriminate].
             injection ER as <- <-. reflexivity.
          -- rewrite (fr_left _ _ _ F) by reflexivity. now apply D.
        * apply Forall2_app; [now apply (held_later _ _ _ _ _ F)|]. constructor; [|constructor].
          destruct (LCV _ _ _ ops a l v n0 n1 lap) as [M|]; [|easy]. split; [apply V|]. intros _. now apply N.
      + split; [exact E|]. split; [exact C'|discriminate|now apply (held_later _ _ _ _ _ F)].
    - (* RepXspace *)
      assert (G : forall m, coherent m -> fst (XspaceH Gam Matrix_sqrt Matrix_sqrtInv calls done m) =
                   (let* _ := insideV Gam Matrix_sqrt Matrix_sqrtInv calls in if done then Ok tt else Raise ValueError)).
      { intros m0 C0. unfold XspaceH, hbind. destruct (y_inside Gam Matrix_sqrt Matrix_sqrtInv calls m0 C0) as (_ & _ & V).
        destruct (insideH Gam Matrix_sqrt Matrix_sqrtInv calls m0) as [[[]|x] m1], (insideV Gam Matrix_sqrt Matrix_sqrtInv calls) as [[]|x'];
          cbn [fst snd bind] in *; try easy; [now destruct done|now subst]. }
      assert (E : fst (fst (match XspaceH Gam Matrix_sqrt Matrix_sqrtInv calls done m with
                 | (Ok _, m') => (Nothing, m', held) | (Raise x, m') => (Raised x, m', held) end)) = alone (CallXspace calls done)).
      { unfold alone, PropsSharing.alone. cbn [Sharing.step]. pose proof (G m C) as G1. pose proof (G fresh_mem (coherent_fresh _ _ _)) as G2.
        destruct (XspaceH _ _ _ calls done m) as [[x|x] m1], (XspaceH _ _ _ calls done fresh_mem) as [[y|y] m2]; cbn [fst] in *; congruence. }
      pose proof (frame_inside Gam Matrix_sqrt Matrix_sqrtInv calls m) as F.
      destruct (y_inside Gam Matrix_sqrt Matrix_sqrtInv calls m C) as (_ & C1 & _).
      unfold XspaceH, hbind in E |- *. destruct (insideH Gam Matrix_sqrt Matrix_sqrtInv calls m) as [[[]|x] m1]; cbn [fst snd] in *.
      + destruct done.
        * split; [exact E|]. cbn [after]. split; cbn [dirty mine].
          -- now apply (coherent_forget _ _ _ cleared_by_Xspace).
          -- reflexivity.
          -- pose proof (held_later _ _ _ _ _ F H) as H1. clear - H1.
             induction H1 as [|r b h bs [L _] _ IH]; cbn; constructor; [|assumption]. split; [exact L|].
             intros _ (k & r' & Ek & _). discriminate.
        * split; [exact E|]. split; [exact C1|discriminate|now apply (held_later _ _ _ _ _ F)].
      + split; [exact E|]. split; [exact C1|discriminate|now apply (held_later _ _ _ _ _ F)].
    - (* a remembering function *)
      assert (G : forall m, coherent m -> gives Gam Matrix_sqrt Matrix_sqrtInv (recallH Gam Matrix_sqrt Matrix_sqrtInv k m)
                              (valueV Gam Matrix_sqrt Matrix_sqrtInv k)).
      { intros m0 C0. now apply yields_gives, y_recall. }
      pose proof (returning_same m _ _ held G C) as E.
      destruct (okm_recall Gam Matrix_sqrt Matrix_sqrtInv m k) as [F Fr]. destruct (G m C) as [C' V].
      unfold returning in E at 1. unfold returning.
      destruct (recallH Gam Matrix_sqrt Matrix_sqrtInv k m) as [[r|x] m'] eqn:ER; cbn [fst snd] in *.
      + split; [exact E|]. cbn [after]. split; cbn [dirty mine]; [exact C'|discriminate|].
        apply Forall2_app; [now apply (held_later _ _ _ _ _ F)|]. constructor; [|constructor].
        destruct (valueV _ _ _ k) as [M|]; [|easy]. split; [apply V|discriminate].
      + split; [exact E|]. split; [exact C'|discriminate|now apply (held_later _ _ _ _ _ F)].
    - (* the caller *)
      cbn [permitted] in P. unfold alone, PropsSharing.alone. cbn [Sharing.step].
      replace (nth_error (@nil ref) i) with (@None ref) by (now destruct i). cbn [fst].
      destruct (nth_error held i) as [r|] eqn:Er; [|split; [reflexivity|split; assumption]].
      split; [reflexivity|]. cbn [after].
      assert (N : ~ owned m (base r)).
      { clear - H Er P. revert i Er P. induction H as [|r' b h bs [L N] H IH]; intros [|i] Er P; cbn in *; try discriminate.
        - injection Er as <-. apply N. destruct b; congruence.
        - eapply IH; eauto. }
      split; [now apply coherent_put|exact D|].
      cbn [arrays]. rewrite put_length. exact H.
  Qed.

  Lemma sessions_main es : forall w m held os m' held', inv w m held ->
    session es m held = (os, m', held') -> careful w es os ->
    os = map alone es /\ exists w', inv w' m' held'.
  Proof.
    induction es as [|e es IH]; intros w m held os m' held' I E K; unfold session in E; cbn [Sharing.session] in E.
    { injection E as <- <- <-. split; [reflexivity|eauto]. }
    destruct (Sharing.step _ _ _ e m held) as [[o m1] held1] eqn:S1.
    destruct (Sharing.session _ _ _ es m1 held1) as [[os' m2] held2] eqn:S2. injection E as <- <- <-.
    cbn [careful] in K. destruct K as [P K]. pose proof (inv_step w m held e I P) as H. unfold step in H. rewrite S1 in H.
    destruct H as [-> I']. destruct (IH _ _ _ _ _ _ I' S2 K) as [-> W]. split; [reflexivity|exact W].
  Qed.
  Lemma inv_start : inv at_start fresh_mem [].
  Proof. split; [apply coherent_fresh|reflexivity|constructor]. Qed.

  (** Whatever has happened before, and whatever the caller has done to the
      arrays that belong to them, every call is answered as if it were the
      first. *)
  Theorem C75_sessions : forall es os m held, session es fresh_mem [] = (os, m, held) -> careful at_start es os ->
    os = map alone es.
  Proof. intros es os m held E K. now destruct (sessions_main es _ _ _ _ _ _ inv_start E K). Qed.

  (** In particular if the caller changes nothing. *)
  Lemma calls_careful es : Forall is_call es -> forall w os, careful w es os.
  Proof.
    induction 1 as [|e es C H IH]; intros w [|o os]; cbn; auto. split; [|apply IH]. now destruct e.
  Qed.
  Theorem C75_calls : forall es os m held, Forall is_call es -> session es fresh_mem [] = (os, m, held) -> os = map alone es.
  Proof. intros es os m held C E. eapply C75_sessions; [exact E|]. now apply calls_careful. Qed.

  (** No call ever writes into an array that existed before it, in any memory. *)
  Lemma step_ext e m held : is_call e -> let '(_, m', held') := step e m held in ext m m' /\ exists l, held' = held ++ l.
  Proof.
    intros C. destruct e as [ops a l v n0 n1 lap|ops a l v n0 n1 lap|calls done|k|i X]; try easy; unfold step; cbn [Sharing.step].
    - destruct (okm_Prod Gam Matrix_sqrt Matrix_sqrtInv m ops a l v n0 n1 lap) as [F _]. apply fr_ext in F. unfold returning.
      destruct (RepRadial_ProdH _ _ _ ops a l v n0 n1 lap m) as [[r|x] m']; cbn [snd] in F; (split; [exact F|]); [eauto|exists []; now rewrite app_nil_r].
    - destruct (okp_LC Gam Matrix_sqrt Matrix_sqrtInv m ops a l v n0 n1 lap) as [F _]. apply fr_ext in F. unfold returning.
      destruct (RepRadial_LCH _ _ _ ops a l v n0 n1 lap m) as [[r|x] m']; cbn [snd] in F; (split; [exact F|]); [eauto|exists []; now rewrite app_nil_r].
    - pose proof (frame_inside Gam Matrix_sqrt Matrix_sqrtInv calls m) as F. apply fr_ext in F. unfold XspaceH, hbind.
      destruct (insideH _ _ _ calls m) as [[[]|x] m1]; cbn [snd] in F; [destruct done|]; cbn; (split; [exact F|exists []; now rewrite app_nil_r]).
    - destruct (okm_recall Gam Matrix_sqrt Matrix_sqrtInv m k) as [F _]. apply fr_ext in F. unfold returning.
      destruct (recallH _ _ _ k m) as [[r|x] m']; cbn [snd] in F; (split; [exact F|]); [eauto|exists []; now rewrite app_nil_r].
  Qed.
  Theorem C75_no_writes : forall e m held o m' held', is_call e -> step e m held = (o, m', held') ->
    forall a, (a < length (arrays m))%nat -> nth a (arrays m') no_array = nth a (arrays m) no_array.
  Proof.
    intros e m held o m' held' C E a H. pose proof (step_ext e m held C) as X. rewrite E in X. destruct X as [[l ->] _].
    now apply app_nth1.
  Qed.

  (** So what has been returned stays as it was. *)
  Lemma stay es : Forall is_call es -> forall w m held os m' held', inv w m held -> session es m held = (os, m', held') ->
    map (content (arrays m')) held' = map (content (arrays m)) held ++ returned os.
  Proof.
    induction 1 as [|e es C H IH]; intros w m held os m' held' I E; unfold session in E; cbn [Sharing.session] in E.
    { injection E as <- <- <-. cbn. now rewrite app_nil_r. }
    destruct (Sharing.step _ _ _ e m held) as [[o m1] held1] eqn:S1.
    destruct (Sharing.session _ _ _ es m1 held1) as [[os' m2] held2] eqn:S2. injection E as <- <- <-.
    assert (P : permitted e w) by (now destruct e).
    pose proof (inv_step w m held e I P) as J. pose proof (step_ext e m held C) as X. unfold step in J, X. rewrite S1 in J, X.
    destruct J as [_ I1]. destruct X as [[l X] _]. rewrite (IH _ _ _ _ _ _ I1 S2).
    assert (Q : map (content (arrays m1)) held1 = map (content (arrays m)) held ++ returned [o]).
    { assert (Q0 : map (content (arrays m1)) held = map (content (arrays m)) held).
      { rewrite X. pose proof (inv_held _ _ _ I) as HH. clear - HH. induction HH as [|r b h bs [L _] _ IH]; cbn; [reflexivity|].
        rewrite IH. now rewrite content_app. }
      rewrite <- Q0. clear - S1 C. destruct e; try easy; cbn [Sharing.step] in S1; unfold returning in S1.
      all: match type of S1 with (match ?t with _ => _ end) = _ => destruct t as [[r|x] m0] end.
      all: injection S1 as <- <- <-; cbn [returned]; try (now rewrite app_nil_r); now rewrite map_app. }
    rewrite Q, <- app_assoc. f_equal. cbn [returned]. destruct o; reflexivity.
  Qed.
  Theorem C75_results_stay : forall es os m held, Forall is_call es -> session es fresh_mem [] = (os, m, held) ->
    map (content (arrays m)) held = returned os.
  Proof. intros es os m held C E. now rewrite (stay es C _ _ _ _ _ _ inv_start E). Qed.

  (** ** Orderly sessions *)

  (** [RepRadial_Prod] may raise; calls of [RepRadial_LC] and [RepXspace]
      return; no remembering function is called directly. *)
  Definition orderly (e : event) (o : seen) : Prop :=
    match e, o with
    | CallLC _ _ _ _ _ _ _, Raised _ | CallXspace _ _, Raised _ | CallRemembering _, _ => False
    | _, _ => True
    end.

  Lemma step_seen e m held : let '(o, _, _) := step e m held in
    match e with
    | CallProd _ _ _ _ _ _ _ | CallLC _ _ _ _ _ _ _ | CallRemembering _ => o <> Nothing
    | CallXspace _ _ => forall M, o <> Returned M
    | Modify _ _ => o = Nothing
    end.
  Proof.
    destruct e; unfold step; cbn [Sharing.step]; unfold returning;
      try (match goal with |- context [match ?t with _ => _ end] => destruct t as [[r|x] m0] end; discriminate).
    now destruct (nth_error held i).
  Qed.

  Definition all_mine (w : ownership) : Prop := dirty w = false /\ Forall (fun b => b = true) (mine w).
  Lemma orderly_main es : forall w m held os m' held', inv w m held -> all_mine w -> NoDup (map base held) ->
    session es m held = (os, m', held') -> Forall2 orderly es os ->
    os = map alone es /\ NoDup (map base held').
  Proof.
    induction es as [|e es IH]; intros w m held os m' held' I A D E O; unfold session in E; cbn [Sharing.session] in E.
    { injection E as <- <- <-. auto. }
    destruct (Sharing.step _ _ _ e m held) as [[o m1] held1] eqn:S1.
    destruct (Sharing.session _ _ _ es m1 held1) as [[os' m2] held2] eqn:S2. injection E as <- <- <-.
    inversion O as [|? ? ? ? O1 O2]; subst.
    assert (P : permitted e w).
    { destruct e; try exact Logic.I. cbn. intros N. apply nth_error_In in N. destruct A as [_ A]. rewrite Forall_forall in A. now apply A in N. }
    pose proof (inv_step w m held e I P) as J. unfold step in J. rewrite S1 in J. destruct J as [-> I1].
    pose proof (step_seen e m held) as SS. unfold step in SS. rewrite S1 in SS.
    assert (A1 : all_mine (after e (alone e) w)).
    { destruct A as [A1 A2]. destruct e, (alone _) eqn:EA; cbn [after orderly] in *; try easy; try (now destruct (SS M)); split; cbn [dirty mine]; try assumption; try reflexivity.
      - rewrite A1. apply Forall_app. split; [assumption|repeat constructor].
      - apply Forall_app. split; [assumption|repeat constructor].
      - apply Forall_forall. intros b Hb. apply in_map_iff in Hb. now destruct Hb as (? & <- & _). }
    assert (D1 : NoDup (map base held1)).
    { assert (New : forall r, from m r -> NoDup (map base (held ++ [r]))).
      { intros r Fr. rewrite map_app. cbn [map].
        assert (Ha : Add (base r) (map base held) (map base held ++ [base r])).
        { rewrite <- (app_nil_r (map base held)) at 1. apply Add_app. }
        apply (NoDup_Add Ha). split; [assumption|]. intros N. apply in_map_iff in N. destruct N as (r' & B & N).
        destruct A as [_ A]. pose proof (inv_held _ _ _ I) as HH. revert A N. clear - HH Fr B.
        induction HH as [|x b h bs [L K] _ IHH]; intros A N; [easy|]. inversion A; subst. destruct N as [->|N]; [|now apply IHH].
        unfold from in Fr. rewrite <- B in Fr. destruct Fr as [Fr|Fr]; [now apply K|lia]. }
      destruct e as [ops a l v n0 n1 lap|ops a l v n0 n1 lap|calls done|k|i X]; cbn [Sharing.step orderly] in *; unfold returning in S1.
      - destruct (okm_Prod Gam Matrix_sqrt Matrix_sqrtInv m ops a l v n0 n1 lap) as [_ Fr].
        destruct (RepRadial_ProdH _ _ _ ops a l v n0 n1 lap m) as [[r|x] m0]; injection S1 as S1 <- <-; [|assumption].
        apply New. now apply Fr.
      - destruct (okp_LC Gam Matrix_sqrt Matrix_sqrtInv m ops a l v n0 n1 lap) as [_ Fr].
        destruct (RepRadial_LCH _ _ _ ops a l v n0 n1 lap m) as [[r|x] m0]; injection S1 as S1 <- <-; [|assumption].
        apply New. right. now apply Fr.
      - destruct (XspaceH _ _ _ calls done m) as [[r|x] m0]; injection S1 as S1 <- <-; assumption.
      - easy.
      - destruct (nth_error held i); injection S1 as S1 <- <-; assumption. }
    destruct (IH _ _ _ _ _ _ I1 A1 D1 S2 O2) as [-> D2]. auto.
  Qed.

  (** Then the caller may change every array returned, and no two of these are
      the same array. *)
  Theorem C75_orderly : forall es os m held, session es fresh_mem [] = (os, m, held) -> Forall2 orderly es os ->
    os = map alone es /\ NoDup (map base held).
  Proof.
    intros es os m held E O. eapply (orderly_main es _ _ _ _ _ _ inv_start); eauto; [|constructor].
    split; [reflexivity|constructor].
  Qed.

  (** ** Otherwise arrays are shared *)

  Lemma learn_same k r m : tab (learn k r m) k = Some r.
  Proof. cbn. now destruct (key_eq_dec k k). Qed.
  Lemma memo_hit k f m r : tab m k = Some r -> memo k f m = (Ok r, m).
  Proof. unfold memo. now intros ->. Qed.
  Lemma memo_learns k f m r m' : memo k f m = (Ok r, m') -> tab m' k = Some r.
  Proof.
    unfold memo. destruct (tab m k) as [r0|] eqn:E.
    - intros [= <- <-]. exact E.
    - destruct (f m) as [[r1|x] m1]; [|discriminate]. intros [= <- <-]. apply learn_same.
  Qed.

  (** A remembering function called directly returns the array it remembers:
      what the caller writes into it is returned by the next call. *)
  Theorem C75_remembering_refuted : forall k M a, (forall l n0 n1, k <> KElem M_eye l n0 n1) ->
    fst (recallH Gam Matrix_sqrt Matrix_sqrtInv k fresh_mem) = Ok (Whole a) ->
    alone (CallRemembering k) = Returned M ->
    forall X, fst (fst (session [CallRemembering k; Modify 0 X; CallRemembering k] fresh_mem [])) = [Returned M; Nothing; Returned X].
  Proof.
    intros k M a Hk Ha HM X. unfold alone, PropsSharing.alone in HM. cbn [Sharing.step] in HM. unfold session. cbn [Sharing.session Sharing.step].
    set (f := recallH Gam Matrix_sqrt Matrix_sqrtInv k) in *.
    assert (Hm : exists k' g, forall m, f m = memo k' g m).
    { unfold f. destruct k; cbn [Sharing.recallH]; try (eexists; eexists; intros; reflexivity).
      destruct e; try (eexists; eexists; intros; reflexivity). now destruct (Hk lambdaa nu_min nu_max). }
    destruct Hm as (k' & g & Hm).
    destruct (y_recall Gam Matrix_sqrt Matrix_sqrtInv fresh_mem k (coherent_fresh _ _ _)) as (_ & _ & V). fold f in V.
    unfold returning in HM |- *. destruct (f fresh_mem) as [[r|x] m1] eqn:E1; cbn [fst snd] in *; [|discriminate].
    injection Ha as ->. injection HM as HM. rewrite Hm in E1. apply memo_learns in E1.
    cbn [nth_error app base]. rewrite (Hm (mkMem _ _)), (memo_hit k' g _ (Whole a)) by exact E1.
    cbn [fst content arrays]. rewrite HM. 
    assert (L : (a < length (arrays m1))%nat) by (destruct (valueV _ _ _ k) as [N|]; [apply V|easy]).
    now rewrite nth_put_same by exact L.
  Qed.

  Lemma prod_is_memo w an l v n0 n1 m0 r : fst (RepRadial_Prod_commonH Gam Matrix_sqrt Matrix_sqrtInv w an l v n0 n1 0 m0) = Ok r ->
    exists k g, top k = false /\ forall m, RepRadial_Prod_commonH Gam Matrix_sqrt Matrix_sqrtInv w an l v n0 n1 0 m = memo k g m.
  Proof.
    unfold RepRadial_Prod_commonH. destruct (Rle_dec l 0); [discriminate|]. destruct (Rle_dec (l + IZR v) 0); [discriminate|].
    unfold hbind at 1, hlift at 1. destruct (Parse_RadialOp_List w) as [ops|]; [|discriminate].
    unfold hbind at 1, hlift at 1. destruct (Lambda_RadialOp_List ops v) as [sh|] eqn:EL; [|discriminate].
    destruct (insert_id ops sh) as [ops' sh'] eqn:EI. intros _. unfold RepRadialshfs_ProdH at 1.
    eexists (KShfs _ _ _ _ _ _), _. split; [reflexivity|]. intros m. unfold hbind at 1 2 3, hlift at 1 2. rewrite EL, EI. cbv zeta.
    unfold hbind at 1. unfold RepRadialshfs_ProdH. cbn [Z.eqb].
    match goal with |- match ?t with _ => _ end = _ => destruct t as [[p|x] m'] eqn:E end; cbn [hret]; symmetry; exact E.
  Qed.

  (** The end of the two sessions below. *)
  Lemma shared_tail w an l v n0 n1 k g m2 a M X : top k = false ->
    (forall m, RepRadial_Prod_commonH Gam Matrix_sqrt Matrix_sqrtInv w an l v n0 n1 0 m = memo k g m) ->
    tab m2 k = Some (Whole a) -> tab m2 (KProd w an l v n0 n1 0) = Some (Whole a) ->
    (a < length (arrays m2))%nat -> nth a (arrays m2) no_array = M ->
    fst (fst (session [CallProd w an l v n0 n1 0; Modify 0 X; CallLC [(1%R, w)] an l v n0 n1 0] m2 []))
      = [Returned M; Nothing; Returned (mscale 1 X)].
  Proof.
    intros Tk Hm T2 Tp L HM. set (kp := KProd w an l v n0 n1 0) in *.
    set (m3 := mkMem (arrays m2) (fun k => if cleared_by_Prod k then None else tab m2 k)).
    assert (S1 : Sharing.step Gam Matrix_sqrt Matrix_sqrtInv (CallProd w an l v n0 n1 0) m2 [] = (Returned M, m3, [Whole a])).
    { cbn [Sharing.step]. unfold returning, RepRadial_ProdH, hbind. rewrite Hm, (memo_hit k g m2 (Whole a) T2). cbn [forget hret arrays content app]. now rewrite HM. }
    set (m4 := mkMem (put (arrays m3) a X) (tab m3)).
    assert (S2 : Sharing.step Gam Matrix_sqrt Matrix_sqrtInv (Modify 0 X) m3 [Whole a] = (Nothing, m4, [Whole a])) by reflexivity.
    assert (T4 : tab m4 kp = Some (Whole a)) by exact Tp.
    assert (S3 : fst (fst (Sharing.step Gam Matrix_sqrt Matrix_sqrtInv (CallLC [(1%R, w)] an l v n0 n1 0) m4 [Whole a])) = Returned (mscale 1 X)).
    { cbn [Sharing.step]. unfold returning, RepRadial_LCH, RepRadial_LC_commonH. unfold hbind at 1 2. unfold RepRadial_Prod_remH. fold kp.
      rewrite (memo_hit kp _ m4 _ T4). cbn. rewrite nth_last. now rewrite nth_put_same by exact L. }
    unfold session. cbn [Sharing.session]. rewrite S1, S2.
    destruct (Sharing.step _ _ _ _ m4 [Whole a]) as [[o m5] h5]. cbn [fst] in S3. now rewrite S3.
  Qed.

  (** After a call that has been left unfinished, what [RepRadial_Prod] returns
      may still be remembered by [RepRadial_Prod_rem]: what the caller writes
      into it is then used by [RepRadial_LC].  Here the call is [RepXspace]
      raising an exception after one radial matrix ... *)
  Theorem C75_unfinished_refuted : forall w an l v n0 n1 M a,
    fst (RepRadial_ProdH Gam Matrix_sqrt Matrix_sqrtInv w an l v n0 n1 0 fresh_mem) = Ok (Whole a) ->
    alone (CallProd w an l v n0 n1 0) = Returned M ->
    forall X, fst (fst (session [CallXspace [KProd w an l v n0 n1 0] false; CallProd w an l v n0 n1 0; Modify 0 X;
                                 CallLC [(1%R, w)] an l v n0 n1 0] fresh_mem []))
      = [Raised ValueError; Returned M; Nothing; Returned (mscale 1 X)].
  Proof.
    intros w an l v n0 n1 M a Ha HM X. unfold alone, PropsSharing.alone in HM. cbn [Sharing.step] in HM.
    unfold returning, RepRadial_ProdH, hbind in Ha, HM.
    destruct (y_Prod_common Gam Matrix_sqrt Matrix_sqrtInv fresh_mem w an l v n0 n1 0 (coherent_fresh _ _ _)) as (_ & C1 & V).
    pose proof (prod_is_memo w an l v n0 n1 fresh_mem (Whole a)) as PM.
    destruct (RepRadial_Prod_commonH _ _ _ w an l v n0 n1 0 fresh_mem) as [[r|x] m1] eqn:E1; cbn [fst snd forget hret arrays content] in *; [|discriminate].
    injection Ha as ->. injection HM as HM. destruct (PM eq_refl) as (k & g & Tk & Hm).
    assert (L : (a < length (arrays m1))%nat) by (destruct (Prod_commonV _ _ _ w an l v n0 n1 0); [apply V|easy]).
    pose proof E1 as E2. rewrite Hm in E2. apply memo_learns in E2.
    set (kp := KProd w an l v n0 n1 0) in *.
    assert (R1 : RepRadial_Prod_remH Gam Matrix_sqrt Matrix_sqrtInv w an l v n0 n1 0 fresh_mem = (Ok (Whole a), learn kp (Whole a) m1)).
    { unfold RepRadial_Prod_remH, memo. fold kp. cbn [tab fresh_mem]. now rewrite E1. }
    set (m2 := learn kp (Whole a) m1).
    assert (S1 : Sharing.step Gam Matrix_sqrt Matrix_sqrtInv (CallXspace [kp] false) fresh_mem [] = (Raised ValueError, m2, [])).
    { cbn [Sharing.step]. unfold XspaceH, hbind. cbn [insideH recallH kp]. unfold hbind. now rewrite R1. }
    assert (T2 : tab m2 k = Some (Whole a)).
    { cbn. destruct (key_eq_dec k kp) as [->|]; [discriminate Tk|exact E2]. }
    pose proof (shared_tail w an l v n0 n1 k g m2 a M X Tk Hm T2 (learn_same _ _ _) L HM) as H.
    unfold session in *. cbn [Sharing.session] in *. rewrite S1.
    destruct (Sharing.step _ _ _ (CallProd w an l v n0 n1 0) m2 []) as [[o1 m3] h3].
    destruct (Sharing.step _ _ _ (Modify 0 X) m3 h3) as [[o2 m4] h4].
    destruct (Sharing.step _ _ _ _ m4 h4) as [[o3 m5] h5]. cbn [fst] in *. now rewrite H.
  Qed.

  (** ... and here a call of [RepRadial_LC] whose second word is not one of
      radial operators. *)
  Theorem C75_raised_refuted : forall w bad e c c' an l v n0 n1 M a,
    fst (RepRadial_ProdH Gam Matrix_sqrt Matrix_sqrtInv w an l v n0 n1 0 fresh_mem) = Ok (Whole a) ->
    alone (CallProd w an l v n0 n1 0) = Returned M -> Parse_RadialOp_List bad = Raise e ->
    forall X, fst (fst (session [CallLC [(c, w); (c', bad)] an l v n0 n1 0; CallProd w an l v n0 n1 0; Modify 0 X;
                                 CallLC [(1%R, w)] an l v n0 n1 0] fresh_mem []))
      = [Raised e; Returned M; Nothing; Returned (mscale 1 X)].
  Proof.
    intros w bad e c c' an l v n0 n1 M a Ha HM Hbad X. unfold alone, PropsSharing.alone in HM. cbn [Sharing.step] in HM.
    unfold returning, RepRadial_ProdH, hbind in Ha, HM.
    destruct (y_Prod_common Gam Matrix_sqrt Matrix_sqrtInv fresh_mem w an l v n0 n1 0 (coherent_fresh _ _ _)) as (_ & C1 & V).
    destruct (okm_Prod_common Gam Matrix_sqrt Matrix_sqrtInv top top_left fresh_mem w an l v n0 n1 0) as [F _].
    pose proof (prod_is_memo w an l v n0 n1 fresh_mem (Whole a)) as PM.
    assert (Bad : forall m, fst (RepRadial_Prod_commonH Gam Matrix_sqrt Matrix_sqrtInv w an l v n0 n1 0 fresh_mem) = Ok (Whole a) ->
                   RepRadial_Prod_commonH Gam Matrix_sqrt Matrix_sqrtInv bad an l v n0 n1 0 m = (Raise e, m)).
    { intros m. unfold RepRadial_Prod_commonH. destruct (Rle_dec l 0); [discriminate|]. destruct (Rle_dec (l + IZR v) 0); [discriminate|].
      intros _. unfold hbind, hlift. now rewrite Hbad. }
    destruct (RepRadial_Prod_commonH _ _ _ w an l v n0 n1 0 fresh_mem) as [[r|x] m1] eqn:E1; cbn [fst snd forget hret arrays content] in *; [|discriminate].
    injection Ha as ->. injection HM as HM. destruct (PM eq_refl) as (k & g & Tk & Hm). specialize (fun m => Bad m eq_refl).
    assert (L : (a < length (arrays m1))%nat) by (destruct (Prod_commonV _ _ _ w an l v n0 n1 0); [apply V|easy]).
    pose proof E1 as E2. rewrite Hm in E2. apply memo_learns in E2.
    set (kp := KProd w an l v n0 n1 0) in *.
    assert (R1 : RepRadial_Prod_remH Gam Matrix_sqrt Matrix_sqrtInv w an l v n0 n1 0 fresh_mem = (Ok (Whole a), learn kp (Whole a) m1)).
    { unfold RepRadial_Prod_remH, memo. fold kp. cbn [tab fresh_mem]. now rewrite E1. }
    set (m2 := mkMem (arrays m1 ++ [mscale c (nth a (arrays m1) no_array)]) (tab (learn kp (Whole a) m1))).
    assert (R2 : RepRadial_Prod_remH Gam Matrix_sqrt Matrix_sqrtInv bad an l v n0 n1 0 m2 = (Raise e, m2)).
    { unfold RepRadial_Prod_remH, memo. rewrite Bad. replace (tab m2 _) with (@None ref); [reflexivity|].
      subst m2. cbn [tab learn]. destruct (key_eq_dec _ kp) as [E|].
      - injection E as ->. rewrite (Bad fresh_mem) in E1. discriminate.
      - now rewrite (fr_left _ _ _ F). }
    assert (S1 : Sharing.step Gam Matrix_sqrt Matrix_sqrtInv (CallLC [(c, w); (c', bad)] an l v n0 n1 0) fresh_mem [] = (Raised e, m2, [])).
    { cbn [Sharing.step]. unfold returning, RepRadial_LCH, RepRadial_LC_commonH. cbn [LC_loopH].
      unfold hbind at 1 2. rewrite R1. unfold hbind at 1 2. cbn [scaleH read alloc hbind learn arrays content].
      change (mkMem (arrays m1 ++ [mscale c (nth a (arrays m1) no_array)]) _) with m2. rewrite R2. reflexivity. }
    assert (T2 : tab m2 k = Some (Whole a)).
    { cbn. destruct (key_eq_dec k kp) as [->|]; [discriminate Tk|exact E2]. }
    assert (L2 : (a < length (arrays m2))%nat). { subst m2. cbn [arrays]. rewrite app_length. cbn. lia. }
    assert (M2 : nth a (arrays m2) no_array = M). { subst m2. cbn [arrays]. rewrite app_nth1 by exact L. exact HM. }
    pose proof (shared_tail w an l v n0 n1 k g m2 a M X Tk Hm T2 (learn_same kp (Whole a) m1) L2 M2) as H.
    unfold session in *. cbn [Sharing.session] in *. rewrite S1.
    destruct (Sharing.step _ _ _ (CallProd w an l v n0 n1 0) m2 []) as [[o1 m3] h3].
    destruct (Sharing.step _ _ _ (Modify 0 X) m3 h3) as [[o2 m4] h4].
    destruct (Sharing.step _ _ _ _ m4 h4) as [[o3 m5] h5]. cbn [fst] in *. now rewrite H.
  Qed.

  (** ** A first call computes the matrices of RadialOps.v and FullOps.v *)

  Lemma alone_Prod w an l v n0 n1 lap :
    alone (CallProd w an l v n0 n1 lap) = obs (Prod_commonV Gam Matrix_sqrt Matrix_sqrtInv w an l v n0 n1 lap).
  Proof. apply (returning_obs _ _ _ []). apply yields_gives, y_Prod, coherent_fresh. Qed.
  Lemma alone_LC ops an l v n0 n1 lap :
    alone (CallLC ops an l v n0 n1 lap) = obs (LCV Gam Matrix_sqrt Matrix_sqrtInv ops an l v n0 n1 lap).
  Proof. apply (returning_obs _ _ _ []). apply g_LC, coherent_fresh. Qed.
  Lemma obs_same x y : same x y -> seen_as (obs x) y.
  Proof. now destruct x, y. Qed.

  Hypothesis sqrt_shape : forall M N, Matrix_sqrt M = Ok N -> nrows N = nrows M /\ ncols N = ncols M.
  Hypothesis sqrtInv_shape : forall M N, Matrix_sqrtInv M = Ok N -> nrows N = nrows M /\ ncols N = ncols M.

  Theorem C75_prod_value : forall w an l v n0 n1 lap, 0 <= n0 <= n1 -> 0 <= lap ->
    seen_as (alone (CallProd w an l v n0 n1 lap))
            (RepRadial_Prod_common (Rep_elem Gam Matrix_sqrt Matrix_sqrtInv) an w l v n0 n1 lap).
  Proof. intros. rewrite alone_Prod. apply obs_same. now apply Prod_commonV_same. Qed.

  Theorem C75_lc_value : forall ops an l v n0 n1 lap, 0 <= n0 <= n1 -> 0 <= lap ->
    seen_as (alone (CallLC ops an l v n0 n1 lap))
            (RepRadial_LC (fun w an l => RepRadial_Prod_common (Rep_elem Gam Matrix_sqrt Matrix_sqrtInv) an w l)
               ops an l v n0 n1 lap).
  Proof. intros. rewrite alone_LC. apply obs_same. now apply LCV_same. Qed.
End Proofs.

(** ** Examples *)

(** The functions for square roots are not used by the words below. *)
Definition no_root (M : mat R) : res (mat R) := Raise ValueError.
Lemma no_root_shape M N : no_root M = Ok N -> nrows N = nrows M /\ ncols N = ncols M.
Proof. discriminate. Qed.


(** The matrix of S0 on two states. *)
Definition S0_matrix : mat R :=
  mkMat (1 - 0 + 1) (1 - 0 + 1) (fun i j => nth (Z.to_nat j) (nth (Z.to_nat i) [[5 / 2 / 2 + 0; 0]; [0; 5 / 2 / 2 + 1]] []) 0)%R.
Section Examples.
  Variable Gam : R -> R.

  Lemma Rep_S0 l : Rep_elem Gam no_root no_root M_S0 l 0 1 =
    Ok (mkMat (1 - 0 + 1) (1 - 0 + 1) (fun i j => nth (Z.to_nat j) (nth (Z.to_nat i) [[l / 2 + 0; 0]; [0; l / 2 + 1]] []) 0)%R).
  Proof. reflexivity. Qed.
  Lemma S0_word : Parse_RadialOp_List [Radial_S0] = Ok [SOp 0] /\ Lambda_RadialOp_List [SOp 0] 0 = Ok [0] /\ insert_id [SOp 0] [0] = ([SOp 0], [0]).
  Proof. repeat split. Qed.

  (** One call of [RepRadial_Prod]: the array returned was the one remembered
      for S0, and nothing is remembered any longer. *)
  Example C75_example_prod : RepRadial_ProdH Gam no_root no_root [Radial_S0] 1 (5 / 2) 0 0 1 0 fresh_mem
    = (Ok (Whole 0), mkMem [S0_matrix] (fun k => if cleared_by_Prod k then None else
         tab (learn (KShfs [SOp 0] 1 (5 / 2) [0] 0 1) (Whole 0) (learn (KElem M_S0 (5 / 2) 0 1) (Whole 0) fresh_mem)) k)).
  Proof.
    unfold RepRadial_ProdH, RepRadial_Prod_commonH. destruct (Rle_dec (5 / 2) 0) as [?|_]; [lra|].
    destruct (Rle_dec (5 / 2 + 0) 0) as [?|_]; [lra|]. destruct S0_word as (-> & E2 & E3).
    unfold hlift, hbind. rewrite E2, E3.
    unfold RepRadialshfs_ProdH, memo. cbn [tab fresh_mem rev app shfs_loopH hbind]. unfold hbind.
    cbn [representationH hlift raise_if Z.eqb negb]. unfold hbind, hlift. cbn [raise_if].
    cbn [elemH]. unfold builtH, memo. cbn [tab fresh_mem Z.eqb].
    unfold hbind at 1. replace (5 / 2 + 0)%R with (5 / 2)%R by lra.
    change (0 - Z.min 0 0) with 0. change (1 + 0) with 1. rewrite Rep_S0. unfold hlift, alloc. cbn [arrays fresh_mem length app]. unfold hret.
    cbn [learn arrays forget tab]. reflexivity.
  Qed.
  Example C75_example_alone : alone Gam no_root no_root (CallProd [Radial_S0] 1 (5 / 2) 0 0 1 0) = Returned S0_matrix.
  Proof. unfold alone. cbn [step]. unfold returning. rewrite C75_example_prod. reflexivity. Qed.

  (** Two calls of [RepRadial_LC], both answered as first calls, though the
      caller has changed the first result. *)
  Definition tidy : list event :=
    [CallLC [(2%R, [Radial_S0])] 1 (5 / 2) 0 0 1 0; Modify 0 no_array; CallLC [(2%R, [Radial_S0])] 1 (5 / 2) 0 0 1 0].
  Example C75_example_lc : alone Gam no_root no_root (CallLC [(2%R, [Radial_S0])] 1 (5 / 2) 0 0 1 0) = Returned (mscale 2 S0_matrix).
  Proof.
    rewrite alone_LC. cbn [LCV]. replace (Prod_commonV _ _ _ _ _ _ _ _ _ _) with (Ok S0_matrix); [reflexivity|].
    pose proof (alone_Prod Gam no_root no_root [Radial_S0] 1 (5 / 2) 0 0 1 0) as H. unfold alone in H. cbn [step] in H.
    unfold returning in H. rewrite C75_example_prod in H. destruct (Prod_commonV _ _ _ _ _ _ _ _ _ _); [|discriminate].
    cbn in H. congruence.
  Qed.
  Example C75_example_careful : forall os, careful at_start tidy os.
  Proof. intros [|[]  [|[] [|[] os]]]; cbn; repeat split; discriminate. Qed.
  Example C75_example_session : forall os m held, session Gam no_root no_root tidy fresh_mem [] = (os, m, held) ->
    os = [Returned (mscale 2 S0_matrix); Nothing; Returned (mscale 2 S0_matrix)] /\ NoDup (map base held).
  Proof.
    intros os m held E. assert (A : os = map (alone Gam no_root no_root) tidy) by
      (apply (C75_sessions Gam no_root no_root _ _ _ _ E), C75_example_careful).
    assert (B : os = [Returned (mscale 2 S0_matrix); Nothing; Returned (mscale 2 S0_matrix)]).
    { rewrite A. cbn [map tidy]. now rewrite C75_example_lc. }
    split; [exact B|]. apply (C75_orderly Gam no_root no_root _ _ _ _ E). rewrite B. repeat constructor.
  Qed.

  (** The hypotheses of the refutations, and a wrong answer: after a call of
      [RepRadial_LC] that raised (its second word has a symbol that is not a
      radial operator), the caller sets the matrix of S0 obtained from
      [RepRadial_Prod] to zero, and the next call of [RepRadial_LC] returns
      zero for 1 * S0. *)
  Example C75_example_raised :
    fst (fst (session Gam no_root no_root
      [CallLC [(1%R, [Radial_S0]); (1%R, [Radial_other 1])] 1 (5 / 2) 0 0 1 0; CallProd [Radial_S0] 1 (5 / 2) 0 0 1 0; Modify 0 (zeros 2);
       CallLC [(1%R, [Radial_S0])] 1 (5 / 2) 0 0 1 0] fresh_mem []))
    = [Raised ValueError; Returned S0_matrix; Nothing; Returned (mscale 1 (zeros 2))].
  Proof.
    apply (C75_raised_refuted Gam no_root no_root) with (a := 0%nat); [now rewrite C75_example_prod|apply C75_example_alone|reflexivity].
  Qed.
  Example C75_example_unfinished :
    fst (fst (session Gam no_root no_root
      [CallXspace [KProd [Radial_S0] 1 (5 / 2) 0 0 1 0] false; CallProd [Radial_S0] 1 (5 / 2) 0 0 1 0; Modify 0 (zeros 2);
       CallLC [(1%R, [Radial_S0])] 1 (5 / 2) 0 0 1 0] fresh_mem []))
    = [Raised ValueError; Returned S0_matrix; Nothing; Returned (mscale 1 (zeros 2))].
  Proof.
    apply (C75_unfinished_refuted Gam no_root no_root) with (a := 0%nat); [now rewrite C75_example_prod|apply C75_example_alone].
  Qed.
  Example C75_example_differs : ~ mat_eq (mscale 1 (zeros 2)) (mscale 1 S0_matrix).
  Proof. intros (_ & _ & E). specialize (E 0 0 ltac:(cbn; lia) ltac:(cbn; lia)). cbn in E. lra. Qed.
  (** A remembering function: [RepRadial]. *)
  Example C75_example_remembering : forall X,
    fst (fst (session Gam no_root no_root
      [CallRemembering (KElem M_S0 (5 / 2) 0 1); Modify 0 X; CallRemembering (KElem M_S0 (5 / 2) 0 1)] fresh_mem []))
    = [Returned S0_matrix; Nothing; Returned X].
  Proof. apply (C75_remembering_refuted Gam no_root no_root) with (a := 0%nat); [discriminate|reflexivity|reflexivity]. Qed.
  Example C75_example_value : seen_as (Returned S0_matrix)
    (RepRadial_Prod_common (Rep_elem Gam no_root no_root) 1 [Radial_S0] (5 / 2) 0 0 1 0).
  Proof.
    rewrite <- C75_example_alone. apply C75_prod_value; [exact no_root_shape|exact no_root_shape|lia|lia].
  Qed.
End Examples.

Print Assumptions C75_sessions.
Print Assumptions C75_calls.
Print Assumptions C75_no_writes.
Print Assumptions C75_results_stay.
Print Assumptions C75_orderly.
Print Assumptions C75_prod_value.
Print Assumptions C75_lc_value.
Print Assumptions C75_remembering_refuted.
Print Assumptions C75_unfinished_refuted.
Print Assumptions C75_raised_refuted.
