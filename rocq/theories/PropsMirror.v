(** Prolate and oblate (C91): the sign of the coefficients of the operators that
    change the parity of seniority. *)

From Coq Require Import String Reals Lra Sorted.
From Coq Require Import Lia ZifyBool ZifyNat.
From Verif Require Import PyBase PyFacts Text Compat SphericalSpec Spherical SphericalFacts Matrix RadialMESpec RadialMEFacts IdFacts PropsCGSO3
  FullLabels FullLabelsFacts PropsFullLabels
  Operators FullOps PropsReduced PropsHarmonics FullOpsFacts FullOpsBlocks FullOpsProd PropsHistory FullSpace FullSpaceFacts PropsFullSpace Settings PropsSettings Display DisplayFacts PropsDisplay PropsDriver
  PropsOscillator RadialOps Spectrum PropsCode RadialME RadialWords RadialSums PropsRadialME PropsFullOps Ritz PropsRitz PropsCommutator PropsAmplitude Solver PropsSolver PropsUnits.
Open Scope Z_scope.
Ltac Zify.zify_post_hook ::= Z.div_mod_to_equations.

(** ** Statements *)

(** The operators that are odd under gamma -> pi/3 - gamma, cos 3 gamma ->
    - cos 3 gamma: harmonics of odd seniority (SpHarm_abc has seniority a), the
    momentum and the scalar of pi, q and pi. *)
Definition turns (o : osym) : bool :=
  match o with
  | OSph h => Z.odd (fst (fst (SpHarm_Table h)))
  | Xspace_Pi | Xspace_PiqPi => true
  | ORad _ | SpDiag_sqLdim | SpDiag_sqLdiv | Xspace_PiPi2 | Xspace_PiPi4 => false
  end.
Fixpoint word_turns (w : list osym) : bool :=
  match w with [] => false | o :: w' => xorb (turns o) (word_turns w') end.

(** The same terms, those of odd words with the opposite coefficient. *)
Definition mirrored (op op' : OperatorSum) : Prop :=
  Forall2 (fun t t' => snd t' = snd t /\
    forall nu v al L, cval (fst t') nu v al L = if word_turns (snd t) then (- cval (fst t) nu v al L)%R else cval (fst t) nu v al L) op op'.

(** The state at a position of a list of labels has odd seniority. *)
Definition odd_state (X : list xlabel) (i : Z) : bool :=
  match nth_error X (Z.to_nat i) with Some (_, (v, _, _)) => Z.odd v | None => false end.
Definition sign_of (b : bool) : R := if b then (-1)%R else 1%R.

(** ** Parity of matrices *)

Definition par (ov : Z -> bool) (d : Z) (q : bool) (M : mat R) : Prop :=
  forall i j, 0 <= i < d -> 0 <= j < d -> xorb (ov i) (ov j) <> q -> ent M i j = 0%R.

Lemma rsum_zero f n : (forall k, 0 <= k < Z.of_nat n -> f k = 0%R) -> rsum f n = 0%R.
Proof.
  induction n as [|n IH]; intros H; [reflexivity|]. cbn [rsum]. rewrite IH by (intros; apply H; lia). rewrite H by lia. ring.
Qed.

Lemma par_mm ov d p q M N : square d M -> square d N -> par ov d p M -> par ov d q N -> par ov d (xorb p q) (mm M N).
Proof.
  intros (M1 & M2) (N1 & N2) HM HN i j Hi Hj D. cbn [mm ent]. apply rsum_zero. intros k Hk. rewrite M2 in Hk.
  destruct (Bool.bool_dec (xorb (ov i) (ov k)) p) as [E1|E1].
  - rewrite (HN k j); [ring|lia|lia|]. intros E2. apply D. rewrite <- E1, <- E2. destruct (ov i), (ov k), (ov j); reflexivity.
  - rewrite (HM i k); [ring|lia|lia|exact E1].
Qed.
Lemma par_eq ov d q M N : square d M -> mat_eq M N -> par ov d q M -> par ov d q N.
Proof. intros (S1 & S2) (_ & _ & E) H i j Hi Hj D. rewrite <- E by lia. now apply H. Qed.

Section Parity.
  Variable RP : list rsym -> R -> R -> Z -> Z -> Z -> Z -> res (mat R).
  Variable CG : Z -> Z -> Z -> Z -> Z -> Z -> Z -> Z -> Z -> res R.
  Variable lam : Z -> res Z.
  Variable a : xargs.
  Hypothesis Ha : FullOpsBlocks.valid a.
  Let l := slabels a.
  Let n := zlen l.
  Let rd := rdim a.
  Let d := n * rd.

  Definition os (k : Z) : bool := match nth_error l (Z.to_nat k) with Some (v, _, _) => Z.odd v | None => false end.
  Definition ov (i : Z) : bool := os (i / rd).

  Lemma red_parity u w v x : is_odd (u + v + w) = true -> ME_SO5red u w v = Ok (Some x) -> x = 0%R.
  Proof.
    intros H E. unfold ME_SO5red in E. apply bind_ok in E. destruct E as (? & _ & E). apply bind_ok in E. destruct E as (? & _ & E). apply bind_ok in E. destruct E as (? & _ & E).
    rewrite H, !orb_true_r in E. congruence.
  Qed.

  Lemma at_label k : 0 <= k < n -> exists v al L, nth_error l (Z.to_nat k) = Some (v, al, L) /\ os k = Z.odd v.
  Proof.
    intros H. destruct (label_at_ok l k H) as ([[v al] L] & _ & E). exists v, al, L. split; [exact E|]. unfold os. now rewrite E.
  Qed.

  Lemma ys_parity o M : ys_mat CG (YSym o) (xa_v_min a) (xa_v_max a) (xa_L_min a) (xa_L_max a) = Ok M -> par os n (turns o) M.
  Proof.
    destruct Ha as (_ & Hv & HL). destruct o as [r|h| | | | | |]; cbn [ys_mat]; try discriminate; intros E i j Hi Hj D.
    - destruct (SpHarm_Table h) as [[v al] L] eqn:ET. destruct (C51_matrix _ _ _ _ _ _ _ _ _ _ (lbs_rngVvarL_some _ _ _ _ Hv HL) E) as (_ & _ & K).
      destruct (at_label i Hi) as (vf & af & Lf & Ei & Oi). destruct (at_label j Hj) as (vi & ai & Li & Ej & Oj).
      specialize (K i j vf af Lf vi ai Li ltac:(lia) ltac:(lia) Ei Ej). unfold ME_SO5r3 in K.
      apply bind_ok in K. destruct K as (c & _ & K). apply bind_ok in K. destruct K as (m & Em & K). destruct m as [m|]; cbn in K; [|discriminate]. injection K as <-.
      assert (m = 0%R) as ->; [|ring].
      refine (red_parity vf v vi m _ Em). cbn [turns] in D. rewrite ET in D. cbn [fst] in D. rewrite Oi, Oj in D.
      unfold is_odd. rewrite Zmod_odd. rewrite !Z.odd_add. destruct (Z.odd vf), (Z.odd vi), (Z.odd v); cbn in *; congruence.
    - rewrite sqLdim_ok in E by assumption. injection E as <-. destruct (at_label i Hi) as (vf & af & Lf & Ei & Oi). change (ent (mat_diag (map sqLdim_value l)) i j = 0%R).
      rewrite (diag_entry sqLdim_value l i j _ ltac:(lia) ltac:(lia) Ei). destruct (Z.eqb_spec i j) as [->|]; [|reflexivity]. elim D. destruct (os j); reflexivity.
    - rewrite sqLdiv_ok in E by assumption. injection E as <-. destruct (at_label i Hi) as (vf & af & Lf & Ei & Oi). change (ent (mat_diag (map sqLdiv_value l)) i j = 0%R).
      rewrite (diag_entry sqLdiv_value l i j _ ltac:(lia) ltac:(lia) Ei). destruct (Z.eqb_spec i j) as [->|]; [|reflexivity]. elim D. destruct (os j); reflexivity.
  Qed.

  Lemma turns_app u w : word_turns (u ++ w) = xorb (word_turns u) (word_turns w).
  Proof. induction u as [|o u IH]; [cbn [app word_turns]; now rewrite xorb_false_l|]. cbn [app word_turns]. rewrite IH. now destruct (turns o), (word_turns u), (word_turns w). Qed.

  Lemma sph_parity sph S : RepSO5r3_Prod CG (map YSym sph) (xa_v_min a) (xa_v_max a) (xa_L_min a) (xa_L_max a) = Ok S -> par os n (word_turns sph) S.
  Proof.
    destruct Ha as (_ & Hv & HL). rewrite prod_value by assumption. intros E. apply bind_ok in E. destruct E as (Ms & EM & E). injection E as <-.
    pose proof (mats_square CG _ _ _ _ Hv HL _ _ EM) as SQ. fold l in SQ. apply mapM_Forall2 in EM.
    assert (EQ : par os n false (eye n)) by (intros i j Hi Hj D; cbn [eye ent]; destruct (Z.eqb_spec i j) as [->|]; [|reflexivity]; elim D; destruct (os j); reflexivity).
    assert (G : forall u Ms, Forall2 (fun y M => ys_mat CG y (xa_v_min a) (xa_v_max a) (xa_L_min a) (xa_L_max a) = Ok M) (map YSym u) Ms -> Forall (square n) Ms ->
      forall q A, square n A -> par os n q A -> par os n (xorb q (word_turns u)) (fold_left mm Ms A)).
    { clear EM SQ Ms sph. induction u as [|o u IH]; intros Ms F SQ q A HA PA; inversion F; subst; cbn [fold_left word_turns]; [now rewrite xorb_false_r|].
      inversion SQ; subst. rewrite <- xorb_assoc. apply IH; [assumption|assumption|now apply mm_square|]. apply par_mm; try assumption. now apply ys_parity. }
    destruct sph as [|o sph]; inversion EM; subst; [exact EQ|]. inversion SQ; subst. cbn [word_turns]. apply G; try assumption. now apply ys_parity.
  Qed.

  Lemma flat i : 0 <= i < d -> 0 <= i / rd < n /\ i = i / rd * rd + i mod rd /\ 0 <= i mod rd < rd.
  Proof.
    destruct (xa_rdim a Ha) as (_ & Hr). fold rd in Hr. intros H. unfold d in H. pose proof (Z.div_mod i rd ltac:(lia)). pose proof (Z.mod_pos_bound i rd Hr).
    assert (0 <= i / rd) by (apply Z.div_pos; lia). assert (i / rd < n) by (apply Z.div_lt_upper_bound; lia). lia.
  Qed.

  Lemma asm_parity neg blk q D : asm n rd neg blk = Ok D ->
    (forall j i, 0 <= j < n -> 0 <= i < n -> xorb (os i) (os j) <> q -> forall o, blk j i = Ok o -> o = None) -> par ov d q D.
  Proof.
    intros E H i j Hi Hj X. destruct (xa_rdim a Ha) as (_ & Hr). fold rd in Hr.
    destruct (asm_value n rd (zlen_nonneg l) Hr neg blk D E) as (_ & G & Z0 & _).
    destruct (flat i Hi) as (I1 & I2 & I3). destruct (flat j Hj) as (J1 & J2 & J3). rewrite I2, J2.
    apply Z0; try assumption. destruct (G _ _ J1 I1) as (o & Eo & _). cbn [fst snd] in Eo. rewrite Eo. f_equal. now apply (H _ _ J1 I1 X).
  Qed.

  Lemma Twin_parity nu sph T : RepXspace_Twin RP CG lam nu sph a = Ok T -> par ov d (word_turns sph) T.
  Proof.
    rewrite Twin_asm by exact Ha. intros E. apply bind_ok in E. destruct E as (S & ES & E). apply sph_parity in ES.
    refine (asm_parity _ _ _ _ E _). intros j i Hj Hi X o B. rewrite (ES i j Hi Hj X), Rmult_0_r in B. unfold at2, twin_block in B.
    repeat (apply bind_ok in B; destruct B as (? & _ & B)). destruct (Req_EM_T 0 0); [congruence|contradiction].
  Qed.

  Definition name_turns (m : xname) : bool := match m with NPi | NPiqPi => true | NPiPi _ => false end.

  Lemma X_parity m Y : xcompute RP CG lam m a = Ok Y -> par ov d (name_turns m) Y.
  Proof.
    assert (G : forall neg f q D, asm n rd neg (at2 l f) = Ok D ->
      (forall v al L v' al' L' o, xorb (Z.odd v') (Z.odd v) <> q -> f (v, al, L) (v', al', L') = Ok o -> o = None) -> par ov d q D).
    { intros neg f q D E H. refine (asm_parity _ _ _ _ E _). intros j i Hj Hi X o B.
      destruct (at_label i Hi) as (vf & af & Lf & Ei & Oi). destruct (at_label j Hj) as (vi & ai & Li & Ej & Oj). rewrite (at2_ok _ _ _ _ _ _ Ej Ei) in B.
      rewrite Oi, Oj in X. exact (H _ _ _ _ _ _ _ X B). }
    assert (OD : forall v v' k, v' - v = k -> xorb (Z.odd v') (Z.odd v) = Z.odd k).
    { intros v v' k <-. rewrite Z.odd_sub. reflexivity. }
    destruct m; cbn [xcompute name_turns].
    - rewrite Pi_asm by exact Ha. intros E. refine (G _ _ _ _ E _). intros v al L v' al' L' o X B. unfold pi_block in B.
      apply bind_ok in B. destruct B as (? & _ & B). destruct (_ || _); [congruence|]. apply bind_ok in B. destruct B as (? & _ & B).
      destruct (v' - v =? 1) eqn:E1; [elim X; apply (OD v v' 1); lia|]. destruct (v' - v =? -1) eqn:E2; [elim X; apply (OD v v' (-1)); lia|]. congruence.
    - destruct (Z_lt_le_dec L 0) as [Hl|Hl].
      { unfold RepXspace_PiPi, require_nonnegint. replace (L <? 0) with true by lia. discriminate. }
      rewrite PiPi_asm by assumption. intros E. refine (G _ _ _ _ E _). intros v al L0 v' al' L' o X B. unfold pipi_block in B.
      apply bind_ok in B. destruct B as (? & _ & B). destruct (_ || _); [congruence|]. apply bind_ok in B. destruct B as (? & _ & B). cbv zeta in B.
      destruct (v' - v =? 2) eqn:E1; [elim X; apply (OD v v' 2); lia|]. destruct (v' - v =? -2) eqn:E2; [elim X; apply (OD v v' (-2)); lia|].
      destruct (v' - v =? 0) eqn:E3; [elim X; apply (OD v v' 0); lia|]. congruence.
    - rewrite PiqPi_asm by exact Ha. intros E. refine (G _ _ _ _ E _). intros v al L v' al' L' o X B. unfold piqpi_block in B.
      apply bind_ok in B. destruct B as (? & _ & B). destruct (negb _); [congruence|]. apply bind_ok in B. destruct B as (? & _ & B). cbv zeta in B.
      destruct (v' - v =? 3) eqn:E1; [elim X; apply (OD v v' 3); lia|]. destruct (v' - v =? -3) eqn:E2; [elim X; apply (OD v v' (-3)); lia|].
      destruct (v' - v =? 1) eqn:E3; [discriminate|]. destruct (v' - v =? -1) eqn:E4; [elim X; apply (OD v v' (-1)); lia|]. congruence.
  Qed.

  Lemma W_parity ops : forall nu sph N, W RP CG lam a ops nu sph = Ok N -> par ov d (xorb (word_turns sph) (word_turns ops)) N.
  Proof.
    induction ops as [|o ops IH]; intros nu sph N; cbn [W word_turns]; [rewrite xorb_false_r; apply Twin_parity|].
    assert (F : forall m, name_turns m = turns o ->
      (let* T := seg RP CG lam a nu sph in let* Y := xcompute RP CG lam m a in let* N := W RP CG lam a ops [] [] in Ok (tm T (mm Y N))) = Ok N ->
      par ov d (xorb (word_turns sph) (xorb (turns o) (word_turns ops))) N).
    { intros m <- H. apply bind_ok in H. destruct H as (T & ET & H). apply bind_ok in H. destruct H as (Y & EY & H).
      apply bind_ok in H. destruct H as (N' & EN & H). injection H as <-.
      pose proof (IH _ _ _ EN) as PN. cbn [word_turns] in PN. rewrite xorb_false_l in PN. pose proof (X_parity _ _ EY) as PY.
      pose proof (W_square RP CG lam a Ha _ _ _ _ EN) as SN. pose proof (X_square RP CG lam a Ha _ _ EY) as SY. fold l n rd d in SN, SY.
      pose proof (par_mm _ _ _ _ _ _ SY SN PY PN) as P. unfold seg in ET. destruct T as [T|]; cbn [tm].
      - destruct (_ || _); [|discriminate]. apply bind_ok in ET. destruct ET as (T' & ET & Q). injection Q as ->.
        apply par_mm; [eapply Twin_square; eassumption|now apply mm_square|eapply Twin_parity; eassumption|exact P].
      - destruct (nonempty nu || nonempty sph) eqn:NE; [apply bind_ok in ET; destruct ET as (? & _ & ?); discriminate|].
        destruct sph; [|destruct nu; discriminate]. cbn [word_turns]. rewrite xorb_false_l. exact P. }
    assert (S : par ov d (xorb (word_turns (sph ++ [o])) (word_turns ops)) N -> par ov d (xorb (word_turns sph) (xorb (turns o) (word_turns ops))) N).
    { rewrite turns_app. cbn [word_turns]. rewrite xorb_false_r, xorb_assoc. auto. }
    destruct o as [[| | | | | | | | | |nm]|h| | | | | |]; cbn [full_of]; try (cbn [turns]; rewrite xorb_false_l; apply IH); try (intros H; apply S; exact (IH _ _ _ H)); try (intros H; eapply F; [|exact H]; reflexivity).
    intros H. apply bind_ok in H. destruct H as (? & _ & H). discriminate.
  Qed.

  Lemma Prod_parity w M : fst (RepXspace_Prod RP CG w a (mkX lam [])) = Ok M -> par ov d (word_turns w) M.
  Proof.
    intros E. pose proof (Prod_W RP CG lam a Ha w) as S. change (same (fst (RepXspace_Prod RP CG w a (mkX lam []))) (W RP CG lam a w [] [])) in S. rewrite E in S.
    destruct (W RP CG lam a w [] []) as [N|] eqn:EN; [|contradiction]. cbn in S. pose proof (W_parity _ _ _ _ EN) as P. cbn [word_turns] in P. rewrite xorb_false_l in P.
    eapply par_eq; [|apply mat_eq_sym; exact S|exact P]. now apply (W_square RP CG lam a Ha _ _ _ _ EN).
  Qed.
End Parity.

(** ** Matrices *)

Lemma sgn_sq b : (sign_of b * sign_of b = 1)%R.
Proof. destruct b; cbn; lra. Qed.
Lemma sgn_xor b c : sign_of (xorb b c) = (sign_of b * sign_of c)%R.
Proof. destruct b, c; cbn; lra. Qed.

Section Matrices.
  Variable RP : list rsym -> R -> R -> Z -> Z -> Z -> Z -> res (mat R).
  Variable CG : Z -> Z -> Z -> Z -> Z -> Z -> Z -> Z -> Z -> res R.
  Variables (s : settings) (an lb : R) (nu_min nu_max v_min v_max L_min L_max : Z).
  Hypothesis Hnu : 0 <= nu_min <= nu_max.
  Hypothesis Hv : 0 <= v_min <= v_max.
  Hypothesis HL : 0 <= L_min <= L_max.
  Let a := mkXA an lb nu_min nu_max v_min v_max L_min L_max.
  Let prod w := fst (RepXspace_Prod RP CG w a (mkX (g_lam_fun s) [])).
  Let rep op := code_matrices RP CG s op an lb nu_min nu_max v_min v_max L_min (Some L_max).
  Variable X : list xlabel.
  Hypothesis EX : lbsXspace nu_min nu_max v_min v_max L_min (Some L_max) = Ok X.

  Lemma ov_state i : 0 <= i < zlen X -> ov a i = odd_state X i /\ zlen X = zlen (slabels a) * rdim a.
  Proof.
    intros Hi. destruct (C06_layout _ _ _ _ _ _ Hnu Hv HL) as (X' & sph & E & Es & Hl & HN). rewrite EX in E. injection E as <-.
    rewrite lbs_rngVvarL_some in Es by assumption. injection Es as <-.
    assert (Hd : dimRadial nu_min nu_max = nu_max - nu_min + 1) by (unfold dimRadial; replace (nu_min <=? nu_max) with true by lia; reflexivity).
    rewrite Hd in *. assert (Hr : rdim a = nu_max - nu_min + 1) by reflexivity. assert (Hs : slabels a = lbs v_min v_max L_min L_max) by reflexivity.
    rewrite Hr, Hs. split; [|rewrite Hl; ring]. set (r := nu_max - nu_min + 1) in *.
    pose proof (Z.div_mod i r ltac:(lia)) as DM. pose proof (Z.mod_pos_bound i r ltac:(lia)) as MB.
    assert (0 <= i / r) by (apply Z.div_pos; lia). assert (i / r < zlen (lbs v_min v_max L_min L_max)) by (apply Z.div_lt_upper_bound; lia).
    unfold ov, os, odd_state. rewrite Hs, Hr. fold r.
    destruct (nth_error (lbs v_min v_max L_min L_max) (Z.to_nat (i / r))) as [[[v al] L]|] eqn:En; [|apply nth_error_None in En; unfold zlen in *; lia].
    specialize (HN _ (Z.to_nat (i mod r)) _ En ltac:(lia)).
    replace (Z.to_nat (i / r) * Z.to_nat r + Z.to_nat (i mod r))%nat with (Z.to_nat i) in HN; [now rewrite HN|].
    rewrite <- Z2Nat.inj_mul, <- Z2Nat.inj_add by lia. f_equal. lia.
  Qed.

  (** The matrix of a word joins states whose seniorities have the same parity, or
      only states whose seniorities have different parity. *)
  Theorem C91_words : forall w M i j, prod w = Ok M -> 0 <= i < zlen X -> 0 <= j < zlen X ->
    xorb (odd_state X i) (odd_state X j) <> word_turns w -> ent M i j = 0%R.
  Proof.
    intros w M i j E Hi Hj D. destruct (ov_state i Hi) as (Oi & Hd). destruct (ov_state j Hj) as (Oj & _).
    refine (Prod_parity RP CG (g_lam_fun s) a (conj Hnu (conj Hv HL)) w M E i j _ _ _); [lia|lia|]. now rewrite Oi, Oj.
  Qed.

  Lemma words_flip w M i j : prod w = Ok M -> 0 <= i < zlen X -> 0 <= j < zlen X ->
    (sign_of (odd_state X i) * sign_of (odd_state X j) * ent M i j = sign_of (word_turns w) * ent M i j)%R.
  Proof.
    intros E Hi Hj. rewrite <- sgn_xor. destruct (Bool.bool_dec (xorb (odd_state X i) (odd_state X j)) (word_turns w)) as [->|N]; [reflexivity|].
    rewrite (C91_words w M i j E Hi Hj N). ring.
  Qed.

  Lemma mirror_weighted op op' : mirrored op op' -> forall Ms Ms' x i j, 0 <= i < zlen X -> 0 <= j < zlen X ->
    Forall2 (fun t M => prod (snd t) = Ok M) op Ms -> Forall2 (fun t M => prod (snd t) = Ok M) op' Ms' ->
    weighted op' Ms' x i j = (sign_of (odd_state X i) * sign_of (odd_state X j) * weighted op Ms x i j)%R.
  Proof.
    intros H. induction H as [|[k w] [k' w'] op op' (Hw & Hk) _ IH]; intros Ms Ms' x i j Hi Hj F F'.
    - inversion F; subst. inversion F'; subst. destruct x as [nu [[v al] L]]. cbn. ring.
    - cbn [fst snd] in Hw, Hk. subst w'. inversion F as [|? M ? Ms1 P1 F1]; subst. inversion F' as [|? M' ? Ms1' P1' F1']; subst. cbn [snd] in P1, P1'. rewrite P1 in P1'. injection P1' as <-.
      specialize (IH Ms1 Ms1' x i j Hi Hj F1 F1'). destruct x as [nu [[v al] L]]. cbn [weighted combine map fold_right fst snd] in *. rewrite IH, Hk, Rmult_plus_distr_l. f_equal.
      transitivity (cval k nu v al L * (sign_of (odd_state X i) * sign_of (odd_state X j) * ent M i j))%R; [|ring].
      rewrite (words_flip w M i j P1 Hi Hj). destruct (word_turns w); cbn [sign_of]; ring.
  Qed.

  (** The matrix of the mirrored operator: entries between states of seniorities of
      different parity have the opposite sign. *)
  Theorem C91_matrices : forall op op' D, mirrored op op' -> rep op = Ok D -> exists D', rep op' = Ok D' /\
    nrows D = zlen X /\ ncols D = zlen X /\ nrows D' = zlen X /\ ncols D' = zlen X /\
    forall i j, 0 <= i < zlen X -> 0 <= j < zlen X ->
      ent D' i j = (if xorb (odd_state X i) (odd_state X j) then - ent D i j else ent D i j)%R.
  Proof.
    intros op op' D U ED.
    destruct (C54_linear RP CG (g_lam_fun s) an lb nu_min nu_max v_min v_max L_min L_max Hnu Hv HL op X EX) as ((W & _) & V). cbv beta in W, V.
    destruct (C54_linear RP CG (g_lam_fun s) an lb nu_min nu_max v_min v_max L_min L_max Hnu Hv HL op' X EX) as ((_ & W') & V'). cbv beta in W', V'.
    destruct W' as (D' & ED').
    { intros t' It'. assert (exists t, In t op /\ snd t' = snd t) as (t & It & ->).
      { clear - U It'. induction U as [|t t2 op op' (Hw & _) _ IH]; [contradiction|]. destruct It' as [<-|It']; [exists t; split; [now left|exact Hw]|].
        destruct (IH It') as (t0 & I0 & E0). exists t0. split; [now right|exact E0]. }
      apply W; [exists D; exact ED|exact It]. }
    destruct (V D ED) as (Ms & F & S1 & S2 & HV). destruct (V' D' ED') as (Ms' & F' & S1' & S2' & HV').
    exists D'. split; [exact ED'|]. repeat (split; [assumption|]). intros i j Hi Hj.
    destruct (nth_error X (Z.to_nat j)) as [x|] eqn:Ex; [|apply nth_error_None in Ex; unfold zlen in *; lia].
    rewrite (HV i j x Hi (proj1 Hj) Ex), (HV' i j x Hi (proj1 Hj) Ex), (mirror_weighted op op' U Ms Ms' x i j Hi Hj F F').
    destruct (odd_state X i), (odd_state X j); cbn; ring.
  Qed.

  (** An operator whose words are all even, or all odd. *)
  Lemma uniform_matrix q op D : (forall t, In t op -> word_turns (snd t) = q) -> rep op = Ok D -> forall i j, 0 <= i < zlen X -> 0 <= j < zlen X ->
    (sign_of (odd_state X i) * sign_of (odd_state X j) * ent D i j = sign_of q * ent D i j)%R.
  Proof.
    intros U ED i j Hi Hj.
    destruct (C54_linear RP CG (g_lam_fun s) an lb nu_min nu_max v_min v_max L_min L_max Hnu Hv HL op X EX) as (_ & V). cbv beta in V.
    destruct (V D ED) as (Ms & F & S1 & S2 & HV).
    destruct (nth_error X (Z.to_nat j)) as [[nu [[v al] L]]|] eqn:Ex; [|apply nth_error_None in Ex; unfold zlen in *; lia].
    rewrite (HV i j _ Hi (proj1 Hj) Ex). clear HV V ED S1 S2. induction F as [|[k w] M op Ms P F IH]; [cbn; ring|].
    cbn [weighted combine map fold_right fst snd] in *. rewrite !Rmult_plus_distr_l, IH by (intros t It; apply U; now right). f_equal.
    transitivity (cval k nu v al L * (sign_of (odd_state X i) * sign_of (odd_state X j) * ent M i j))%R; [ring|].
    pose proof (U (k, w) (or_introl eq_refl)) as Uw. cbn [snd] in Uw. rewrite (words_flip w M i j P Hi Hj), Uw. ring.
  Qed.
End Matrices.

(** ** Hamiltonians *)

Lemma opt_mirror b x t t' : snd t' = snd t -> b = word_turns (snd t) ->
  (forall nu v al L, cval (fst t') nu v al L = if word_turns (snd t) then (- cval (fst t) nu v al L)%R else cval (fst t) nu v al L) ->
  mirrored (opt_term (CNum x) t) (opt_term (CNum (if b then - x else x)) t').
Proof.
  intros H1 H2 H3. unfold opt_term. assert (Z : is0 (CNum (if b then - x else x)%R) = is0 (CNum x)).
  { cbn. destruct b; [|reflexivity]. destruct (Req_EM_T (- x) 0), (Req_EM_T x 0); try reflexivity; exfalso; lra. }
  rewrite Z. destruct (is0 (CNum x)); [constructor|]. constructor; [|constructor]. auto.
Qed.

(** The terms with an odd power of cos 3 gamma, and the scalar of pi, q and pi. *)
Theorem C91_Hamiltonian : forall c11 c20 c21 c22 c23 c30 c31 c32 c33 c40 c41 c42 c43 c50,
  mirrored
    (ACM_Hamiltonian (CNum c11) (CNum c20) (CNum c21) (CNum c22) (CNum c23) (CNum c30) (CNum c31) (CNum c32) (CNum c33)
       (CNum c40) (CNum c41) (CNum c42) (CNum c43) (CNum c50))
    (ACM_Hamiltonian (CNum c11) (CNum c20) (CNum c21) (CNum c22) (CNum c23) (CNum (- c30)) (CNum (- c31)) (CNum (- c32)) (CNum (- c33))
       (CNum c40) (CNum c41) (CNum c42) (CNum c43) (CNum (- c50))).
Proof.
  intros. unfold ACM_Hamiltonian. cbv zeta.
  assert (APP : forall p q p' q', mirrored p p' -> mirrored q q' -> mirrored (p ++ q) (p' ++ q')) by (intros; now apply Forall2_app).
  apply APP.
  - destruct (is0 (CNum c11)); [constructor|]. repeat constructor.
  - repeat apply APP; first [apply (opt_mirror false) | apply (opt_mirror true)]; try reflexivity; intros; cbn; ring.
Qed.

(** The Hamiltonian of Rowe, Welsh and Caprio with the opposite chi. *)
Theorem C91_RWC : forall B c1 c2 chi kappa, mirrored (RWC_Ham B c1 c2 chi kappa) (RWC_Ham B c1 c2 (- chi) kappa).
Proof.
  intros. unfold RWC_Ham. cbv zeta. pose proof (C91_Hamiltonian (-1 / (2 * B)) 0 (B * c1 / 2) (B * c2 / 2) 0 (- chi) 0 0 0 kappa 0 0 0 0) as K.
  rewrite Ropp_0 in K. exact K.
Qed.

(** ** Levels *)

Definition flipped (p : Z -> bool) (M M' : mat R) : Prop :=
  nrows M' = nrows M /\ ncols M' = ncols M /\
  forall i j, 0 <= i < nrows M -> 0 <= j < ncols M -> ent M' i j = (sign_of (p i) * sign_of (p j) * ent M i j)%R.
Definition turned (p : Z -> bool) (P : mat R) : mat R := mkMat (nrows P) (ncols P) (fun i j => sign_of (p i) * ent P i j)%R.

Lemma turned_eigen p M M' vals P : nrows M = ncols M -> flipped p M M' ->
  eigen_decomposition (symmetric_part M) vals P -> eigen_decomposition (symmetric_part M') vals (turned p P).
Proof.
  intros Sq (S1 & S2 & HE) (L1 & L2 & L3 & L4 & L5 & L6). unfold eigen_decomposition. cbn [symmetric_part turned nrows ncols] in *. rewrite S1.
  split; [exact L1|]. split; [exact L2|]. split; [exact L3|]. split; [exact L4|]. split.
  - intros i j Hi Hj. cbn [turned ent].
    rewrite (total_ext _ (fun k => sign_of (p i) * (ent (symmetric_part M) i k * ent P k j))%R).
    + rewrite total_scal, L5 by assumption. ring.
    + intros k Hk. cbn [symmetric_part ent]. rewrite !HE by (rewrite <- ?Sq; lia). pose proof (sgn_sq (p k)) as Q.
      transitivity (sign_of (p i) * ((ent M i k + ent M k i) / 2 * ent P k j) * (sign_of (p k) * sign_of (p k)))%R; [field|rewrite Q; ring].
  - intros i j Hi Hj. destruct (L6 i j Hi Hj) as (O1 & O2). split.
    + rewrite <- O1. apply total_ext. intros k Hk. cbn [turned ent]. pose proof (sgn_sq (p k)) as Q.
      transitivity (sign_of (p k) * sign_of (p k) * (ent P k i * ent P k j))%R; [ring|rewrite Q; ring].
    + transitivity (sign_of (p i) * sign_of (p j) * total (fun k => ent P i k * ent P j k)%R (nrows M))%R.
      * rewrite <- total_scal. apply total_ext. intros k Hk. cbn [turned ent]. ring.
      * rewrite O2. destruct (Z.eqb_spec i j) as [->|]; [rewrite sgn_sq; ring|ring].
Qed.

Lemma fiddle_mirror eigh eigh' : eigh_sound eigh -> eigh_sound eigh' -> forall p M M' v P v' P', nrows M = ncols M -> flipped p M M' ->
  Eigenfiddle eigh M = Ok (v, P) -> Eigenfiddle eigh' M' = Ok (v', P') -> v' = v.
Proof.
  intros S S' p M M' v P v' P' Sq RM H H'. pose proof RM as (S1 & S2 & _).
  rewrite fiddle_symmetric in H by exact Sq. rewrite fiddle_symmetric in H' by congruence.
  apply S in H; [|reflexivity|intros; cbn; lra]. apply S' in H'; [|reflexivity|intros; cbn; lra].
  apply (same_levels (symmetric_part M') v' P' v (turned p P)); [intros; cbn; lra|exact H'|now apply (turned_eigen p M)].
Qed.

Lemma flipped_slice p M M' a b : 0 <= nrows M -> nrows M = ncols M -> flipped p M M' ->
  nrows (slice M a b a b) = ncols (slice M a b a b) /\ flipped (fun i => p (slice_bound (nrows M) a + i)) (slice M a b a b) (slice M' a b a b).
Proof.
  intros N Sq (S1 & S2 & HE). unfold slice, flipped. cbn [nrows ncols ent]. rewrite S1, S2, <- Sq. split; [reflexivity|]. split; [reflexivity|]. split; [reflexivity|].
  intros i j Hi Hj. assert (B : forall n x, 0 <= n -> 0 <= slice_bound n x <= n) by (intros n x Hn; unfold slice_bound; destruct (x <? 0) eqn:X; lia).
  pose proof (B (nrows M) a N). pose proof (B (nrows M) b N). now rewrite HE by lia.
Qed.

Section Dig.
  Variables RepX RepX' : Z -> option Z -> res (mat R).
  Variables F F' : mat R -> res (list R * mat R).
  Variable tame : bool.
  Variables nu_min nu_max v_min v_max : Z.
  Hypothesis HF : forall p M M' v P v' P', nrows M = ncols M -> flipped p M M' -> F M = Ok (v, P) -> F' M' = Ok (v', P') -> v' = v.
  Hypothesis HR : forall L L_max D D', 0 <= nu_min <= nu_max -> 0 <= v_min <= v_max -> 0 <= L <= opt_L L L_max ->
    RepX L L_max = Ok D -> RepX' L L_max = Ok D' -> 0 <= nrows D /\ nrows D = ncols D /\ exists p, flipped p D D'.

  Lemma tame_mirror : 0 <= nu_min <= nu_max -> 0 <= v_min <= v_max -> forall Ls, (forall L, In L Ls -> 0 <= L) -> forall ev eb eb' Lv r1 r2 r3 r1' r2' r3',
    dig_tame RepX F v_min v_max Ls (ev, eb, Lv) = Ok (r1, r2, r3) ->
    dig_tame RepX' F' v_min v_max Ls (ev, eb', Lv) = Ok (r1', r2', r3') -> r1' = r1 /\ r3 = r3'.
  Proof.
    intros Hn Hv. induction Ls as [|L Ls IH]; intros HLs ev eb eb' Lv r1 r2 r3 r1' r2' r3' H H'; cbn [dig_tame] in H, H'.
    - injection H as <- <- <-. injection H' as <- <- <-. auto.
    - specialize (IH (fun L' I => HLs L' (or_intror I))).
      apply bind_ok in H. destruct H as (d & Ed & H). rewrite Ed in H'. cbn [bind] in H'. destruct (0 <? d); [|eapply IH; eassumption].
      apply bind_ok in H. destruct H as (D & ED & H). apply bind_ok in H'. destruct H' as (D' & ED' & H').
      apply bind_ok in H. destruct H as ([v P] & EE & H). apply bind_ok in H'. destruct H' as ([v' P'] & EE' & H').
      destruct (HR L None D D' Hn Hv ltac:(cbn; specialize (HLs L (or_introl eq_refl)); lia) ED ED') as (_ & Sq & p & RM).
      pose proof (HF _ _ _ _ _ _ _ Sq RM EE EE') as ->. eapply IH; eassumption.
  Qed.
  Lemma full_mirror rep rep' d0 p : 0 <= nrows rep -> nrows rep = ncols rep -> flipped p rep rep' -> forall Ls st ev eb eb' Lv r1 r2 r3 r1' r2' r3',
    dig_full F v_min v_max rep d0 Ls st (ev, eb, Lv) = Ok (r1, r2, r3) ->
    dig_full F' v_min v_max rep' d0 Ls st (ev, eb', Lv) = Ok (r1', r2', r3') -> r1' = r1 /\ r3 = r3'.
  Proof.
    intros N0 Sq RM. induction Ls as [|L Ls IH]; intros st ev eb eb' Lv r1 r2 r3 r1' r2' r3' H H'; cbn [dig_full] in H, H'.
    - injection H as <- <- <-. injection H' as <- <- <-. auto.
    - apply bind_ok in H. destruct H as (d & Ed & H). rewrite Ed in H'. cbn [bind] in H'. destruct (0 <? d); [|eapply IH; eassumption].
      apply bind_ok in H. destruct H as ([v P] & EE & H). apply bind_ok in H'. destruct H' as ([v' P'] & EE' & H').
      destruct (flipped_slice p rep rep' (st - 1) (st + d0 * d) N0 Sq RM) as (Sq' & RM').
      pose proof (HF _ _ _ _ _ _ _ Sq' RM' EE EE') as ->. eapply IH; eassumption.
  Qed.
  Lemma dig_mirror L_min L_max r1 r2 r3 r1' r2' r3' :
    DigXspace RepX F tame nu_min nu_max v_min v_max L_min L_max = Ok (r1, r2, r3) -> DigXspace RepX' F' tame nu_min nu_max v_min v_max L_min L_max = Ok (r1', r2', r3') ->
    r1' = r1 /\ r3 = r3'.
  Proof.
    intros H H'. pose proof (Dig_valid _ _ _ _ _ _ _ _ _ _ H) as (Hn & Hv & HL). unfold DigXspace in H, H'.
    apply bind_ok in H. destruct H as (u1 & E1 & H). rewrite E1 in H'. cbn [bind] in H'.
    apply bind_ok in H. destruct H as (u2 & E2 & H). rewrite E2 in H'. cbn [bind] in H'.
    apply bind_ok in H. destruct H as (u3 & E3 & H). rewrite E3 in H'. cbn [bind] in H'.
    destruct tame.
    - refine (tame_mirror Hn Hv _ _ [] [] [] [] _ _ _ _ _ _ H H'). intros L I. apply py_range_In in I. lia.
    - apply bind_ok in H. destruct H as (rep & E4 & H). apply bind_ok in H'. destruct H' as (rep' & E4' & H').
      destruct (HR L_min (Some (opt_L L_min L_max)) _ _ Hn Hv HL E4 E4') as (N0 & Sq & p & RM). exact (full_mirror _ _ _ p N0 Sq RM _ _ [] [] [] [] _ _ _ _ _ _ H H').
  Qed.
End Dig.

(** ** Two runs *)

Lemma turned_bracket q p1 p2 P1 P2 T r c k1 k2 :
  (forall a b, 0 <= a < nrows P2 -> 0 <= b < nrows P1 -> (sign_of (p2 a) * sign_of (p1 b) * ent T (r + a) (c + b) = sign_of q * ent T (r + a) (c + b))%R) ->
  bracket (turned p2 P2) k2 T r c (turned p1 P1) k1 = (sign_of q * bracket P2 k2 T r c P1 k1)%R.
Proof.
  intros H. unfold bracket. cbn [turned nrows ent]. rewrite <- total_scal. apply total_ext. intros a Ha. rewrite <- total_scal. apply total_ext. intros b Hb.
  transitivity (ent P2 a k2 * ent P1 b k1 * (sign_of (p2 a) * sign_of (p1 b) * ent T (r + a) (c + b)))%R; [ring|]. rewrite H by assumption. ring.
Qed.

(** The expectation value in a simple level does not depend on the eigenvector. *)
Lemma same_moment A v P P' T r c k : (forall i j, 0 <= i < nrows A -> 0 <= j < nrows A -> ent A i j = ent A j i) ->
  eigen_decomposition A v P -> eigen_decomposition A v P' -> 0 <= k < nrows A -> simple_level v k ->
  bracket P k T r c P k = bracket P' k T r c P' k.
Proof.
  intros Y D D' Hk S. pose proof (projector A v v P P' Y D D' (nth (Z.to_nat k) v 0%R)) as PR.
  assert (G : forall i j, 0 <= i < nrows A -> 0 <= j < nrows A -> (ent P i k * ent P j k = ent P' i k * ent P' j k)%R).
  { intros i j Hi Hj. specialize (PR i j Hi Hj). destruct D as (D1 & _).
    assert (K : forall g : Z -> R, total (fun l => at_level v (nth (Z.to_nat k) v 0%R) l * g l)%R (nrows A) = g k)
      by (intros g; exact (simple_total v k g (nrows A) S D1 Hk)).
    rewrite (K (fun l => ent P i l * ent P j l)%R), (K (fun l => ent P' i l * ent P' j l)%R) in PR. exact PR. }
  unfold bracket. destruct D as (_ & N & _). destruct D' as (_ & N' & _). rewrite N, N'. apply total_ext. intros x Hx. apply total_ext. intros y Hy.
  transitivity (ent T (r + x) (c + y) * (ent P x k * ent P y k))%R; [ring|]. rewrite (G x y Hx Hy). ring.
Qed.

Lemma mirror_tame op op' : mirrored op op' -> Op_Tame op' = Op_Tame op.
Proof. intros H. unfold Op_Tame. induction H as [|t t' l l' (Hw & _) _ IH]; [reflexivity|]. destruct t as [k w], t' as [k' w']. cbn [snd] in Hw. subst w'. cbn [forallb snd]. f_equal. exact IH. Qed.

Section Runs.
  Variable flt : text -> R -> text.
  Variable RP : list rsym -> R -> R -> Z -> Z -> Z -> Z -> res (mat R).
  Variable CG : Z -> Z -> Z -> Z -> Z -> Z -> Z -> Z -> Z -> res R.
  Variables (op op' : OperatorSum) (an lb : R) (nu_min nu_max v_min v_max fe fr L_min : Z) (L_max : option Z) (s : settings).
  Hypothesis HU : mirrored op op'.
  Let run m h := run_on flt RP CG m h an lb nu_min nu_max v_min v_max fe fr L_min L_max s.

  Lemma parts' m h ev tr Lv s' o : run m h = (Ok (ev, tr, Lv), s', o) ->
    exists ebs s1 o1 o2, dig (code_matrices RP CG) (m_eigh m) h an lb nu_min nu_max v_min v_max s L_min L_max = Ok (ev, ebs, Lv) /\
      eig_stage flt fe s ev Lv s = (Ok tt, s1, o1) /\ o = o1 ++ o2 /\
      match tr with
      | None => (0 <? zlen (g_rat_lst s)) || (0 <? zlen (g_amp_lst s)) = false /\ s' = s1 /\ o2 = []
      | Some M => (0 <? zlen (g_rat_lst s)) || (0 <? zlen (g_amp_lst s)) = true /\
          exists a fs, amp_stage (code_matrices RP CG) (m_inv m) an lb nu_min nu_max v_min v_max s ebs Lv = Ok (a, fs) /\ M = (known (m_junk m) a, fs) /\ shows flt fr s M Lv s1 = (Ok tt, s', o2)
      end.
  Proof. exact (run_inv flt RP CG h an lb nu_min nu_max v_min v_max fe fr L_min L_max s m ev tr Lv s' o). Qed.

  Lemma code_mirror L mx XL D D' : 0 <= nu_min <= nu_max -> 0 <= v_min <= v_max -> 0 <= L <= opt_L L mx -> lbsXspace nu_min nu_max v_min v_max L mx = Ok XL ->
    code_matrices RP CG s op an lb nu_min nu_max v_min v_max L mx = Ok D -> code_matrices RP CG s op' an lb nu_min nu_max v_min v_max L mx = Ok D' ->
    nrows D = zlen XL /\ nrows D = ncols D /\ flipped (odd_state XL) D D'.
  Proof.
    intros Hn Hv HL EX ED ED'.
    destruct (C91_matrices RP CG s an lb nu_min nu_max v_min v_max L (opt_L L mx) Hn Hv HL XL ltac:(destruct mx; exact EX) op op' D HU) as (D2 & ED2 & N1 & N2 & N1' & N2' & K); [destruct mx; exact ED|].
    assert (Q : Ok D2 = Ok D') by (rewrite <- ED2, <- ED'; destruct mx; reflexivity). injection Q as ->.
    split; [exact N1|]. split; [congruence|]. split; [congruence|]. split; [congruence|]. intros i j Hi Hj. rewrite K by lia.
    destruct (odd_state XL i), (odd_state XL j); cbn; ring.
  Qed.

  Lemma digs_mirror m m' ev ebs Lv ev' ebs' Lv' : eigh_sound (m_eigh m) -> eigh_sound (m_eigh m') ->
    dig (code_matrices RP CG) (m_eigh m) op an lb nu_min nu_max v_min v_max s L_min L_max = Ok (ev, ebs, Lv) ->
    dig (code_matrices RP CG) (m_eigh m') op' an lb nu_min nu_max v_min v_max s L_min L_max = Ok (ev', ebs', Lv') -> ev' = ev /\ Lv = Lv'.
  Proof.
    intros S S' D D'. unfold dig in D, D'. rewrite (mirror_tame _ _ HU) in D'.
    refine (dig_mirror _ _ _ _ _ _ _ _ _ _ _ _ _ _ _ _ _ _ _ D D').
    - intros p M M' v P v' P'. now apply fiddle_mirror.
    - intros L mx D0 D0' Hn Hv HL E E'. pose proof (lbsXspace_ok nu_min nu_max v_min v_max L mx Hn Hv HL) as EX.
      destruct (code_mirror L mx _ D0 D0' Hn Hv HL EX E E') as (N & Sq & K). split; [rewrite N; unfold zlen; lia|]. eauto.
  Qed.

  (** The levels of the mirrored Hamiltonian are the same. *)
  Theorem C91_levels : forall m m' ev tr Lv s' o ev' tr' Lv' s'' o', eigh_sound (m_eigh m) -> eigh_sound (m_eigh m') ->
    run m op = (Ok (ev, tr, Lv), s', o) -> run m' op' = (Ok (ev', tr', Lv'), s'', o') -> Lv' = Lv /\ ev' = ev.
  Proof.
    intros m m' ev tr Lv s' o ev' tr' Lv' s'' o' S S' H H'. apply parts' in H. apply parts' in H'. destruct H as (ebs & s1 & o1 & o2 & D & _). destruct H' as (ebs' & s1' & o1' & o2' & D' & _).
    destruct (digs_mirror _ _ _ _ _ _ _ _ S S' D D') as (-> & ->). auto.
  Qed.

  (** So is what is printed about them, and the fitted scale. *)
  Theorem C91_listing : forall m m' ev Lv s' o ev' Lv' s'' o', eigh_sound (m_eigh m) -> eigh_sound (m_eigh m') ->
    run m op = (Ok (ev, None, Lv), s', o) -> run m' op' = (Ok (ev', None, Lv'), s'', o') -> s'' = s' /\ o' = o.
  Proof.
    intros m m' ev Lv s' o ev' Lv' s'' o' S S' H H'. apply parts' in H. apply parts' in H'. destruct H as (ebs & s1 & o1 & o2 & D & H & -> & Q). destruct H' as (ebs' & s1' & o1' & o2' & D' & H' & -> & Q').
    destruct (digs_mirror _ _ _ _ _ _ _ _ S S' D D') as (-> & <-). destruct Q as (_ & -> & ->). destruct Q' as (_ & -> & ->). rewrite H in H'. injection H' as -> ->. auto.
  Qed.

  Variable q : bool.
  Hypothesis HQ : forall t, In t (g_rat_TRop s) -> word_turns (snd t) = q.

  (** Both arrays of amplitudes, in terms of the same matrices. *)
  Lemma mirror_arrays m m' ev M Lv s' o ev' M' Lv' s'' o' : sound m -> sound m' -> Op_Tame op = true ->
    run m op = (Ok (ev, Some M, Lv), s', o) -> run m' op' = (Ok (ev', Some M', Lv'), s'', o') ->
    ev' = ev /\ Lv = Lv' /\ snd M = snd M' /\ fs_Lvals (snd M) = Lv /\
    exists T start dim vec vec', array_blocks M start dim /\ array_blocks M' start dim /\
      (forall L vals, In (L, vals) (combine Lv ev) -> zlen vals = dim L /\ exists A, nrows A = dim L /\
         (forall i j, 0 <= i < nrows A -> 0 <= j < nrows A -> ent A i j = ent A j i) /\
         eigen_decomposition A vals (vec L) /\ eigen_decomposition A vals (vec' L)) /\
      (forall L1 L2 n1 n2, In L1 Lv -> In L2 Lv -> 1 <= n1 <= dim L1 -> 1 <= n2 <= dim L2 ->
         element M start L1 n1 L2 n2 = (sign_of q * bracket (vec L2) (n2 - 1) T (start L2) (start L1) (vec L1) (n1 - 1))%R /\
         element M' start L1 n1 L2 n2 = bracket (vec' L2) (n2 - 1) T (start L2) (start L1) (vec' L1) (n1 - 1)).
  Proof.
    intros (R1 & S1 & I1) (R1' & S1' & I1') HT H H'.
    assert (HT' : Op_Tame op' = true) by (rewrite (mirror_tame _ _ HU); exact HT).
    destruct (C67_amplitudes flt RP CG (m_eigh m) (m_inv m) (m_junk m) op an lb nu_min nu_max v_min v_max fe fr L_min L_max s ev M Lv s' o R1 S1 I1 HT H)
      as (lo & hi & X & T & start & dim & vec & EH & EX & ET & EL & HA & HD & HM).
    destruct (C67_amplitudes flt RP CG (m_eigh m') (m_inv m') (m_junk m') op' an lb nu_min nu_max v_min v_max fe fr L_min L_max s ev' M' Lv' s'' o' R1' S1' I1' HT' H')
      as (lo' & hi' & X' & T' & start' & dim' & vec' & EH' & _ & ET' & EL' & HA' & HD' & HM').
    apply parts' in H. apply parts' in H'. destruct H as (ebs & s1 & o1 & o2 & ED & _ & _ & Q). destruct H' as (ebs' & s1' & o1' & o2' & ED' & _ & _ & Q').
    destruct (digs_mirror _ _ _ _ _ _ _ _ S1 S1' ED ED') as (-> & <-).
    rewrite EH in EH'. injection EH' as <- <-. rewrite ET in ET'. injection ET' as <-.
    destruct Q as (_ & a & fs & EA & -> & _). destruct Q' as (_ & a' & fs' & EA' & -> & _).
    assert (fs = fs') as <-.
    { unfold amp_stage, AmpXspeig in EA, EA'. apply bind_ok in EA. destruct EA as (u & Eu & EA). rewrite Eu in EA'. cbn [bind] in EA'.
      apply bind_ok in EA. destruct EA as (g & Eg & EA). rewrite Eg in EA'. cbn [bind] in EA'.
      repeat (apply bind_ok in EA; destruct EA as (? & _ & EA); try (destruct x as [? ?])). 
      repeat (apply bind_ok in EA'; destruct EA' as (? & _ & EA')).
      repeat match goal with H : (let '(_, _) := ?p in _) = _ |- _ => destruct p end.
      repeat (apply bind_ok in EA; destruct EA as (? & _ & EA)). repeat (apply bind_ok in EA'; destruct EA' as (? & _ & EA')).
      injection EA as _ <-. injection EA' as _ <-. reflexivity. }
    cbn [snd] in *.
    assert (SD : forall L, In L Lv -> start' L = start L /\ dim' L = dim L).
    { intros L I. destruct (HA L) as (G & _); [cbn [snd]; rewrite EL; exact I|]. destruct (HA' L) as (G' & _); [cbn [snd]; rewrite EL; exact I|].
      cbn [snd] in G, G'. rewrite G in G'. injection G' as G1 G2. lia. }
    destruct (C38_Lvals _ _ _ _ _ _ _ _ _ _ _ _ _ ED) as (Hs & HLv & _). pose proof (Dig_valid _ _ _ _ _ _ _ _ _ _ ED) as (Hn & Hv & HL).
    assert (ND : NoDup Lv) by (eapply StronglySorted_NoDup; [|exact Hs]; intros; lia).
    assert (Hlh : 0 <= lo <= hi).
    { destruct (Z_le_dec 0 lo) as [A|A]; [destruct (Z_le_dec lo hi) as [B|B]; [lia|]|];
        (destruct (C06_invalid_ranges_raise nu_min nu_max v_min v_max lo hi) as (Q & _); [lia|congruence]). }
    set (turn := fun L => turned (fun b => odd_state X (start L + b)) (vec L)).
    split; [reflexivity|]. split; [reflexivity|]. split; [reflexivity|]. split; [exact EL|].
    exists T, start, dim, turn, vec'. split; [exact HA|]. split; [|split].
    - intros L I. destruct (SD L ltac:(cbn [snd] in I; rewrite EL in I; exact I)) as (<- & <-). now apply HA'.
    - intros L vals I. pose proof (in_combine_l _ _ _ _ I) as IL.
      destruct (HD L IL) as (XL & H & v & EXL & DL & HX & EM & NH & Iv & D). destruct (HD' L IL) as (XL' & H' & v' & _ & _ & _ & EM' & NH' & Iv' & D').
      destruct (code_mirror L None XL H H' Hn Hv ltac:(cbn; apply HLv in IL; lia) EXL EM EM') as (_ & Sq & RM).
      pose proof (combine_fun _ _ _ _ _ ND I Iv) as <-. pose proof (combine_fun _ _ _ _ _ ND I Iv') as <-.
      split; [rewrite (proj1 D); exact NH|]. exists (symmetric_part H'). split; [rewrite <- (proj2 (SD L IL)); exact NH'|]. split; [intros i j _ _; cbn; lra|].
      split; [|exact D']. apply (turned_eigen _ H); [exact Sq| |exact D]. destruct RM as (K1 & K2 & K3). split; [exact K1|]. split; [exact K2|].
      intros i j Hi Hj. rewrite K3 by assumption. unfold odd_state. rewrite !HX by lia. reflexivity.
    - intros L1 L2 n1 n2 J1 J2 H1 H2. destruct (SD L1 J1) as (A1 & B1). destruct (SD L2 J2) as (A2 & B2).
      split.
      + rewrite HM by assumption. unfold turn.
        assert (RNG : forall L b, In L Lv -> 0 <= b < nrows (vec L) -> 0 <= start L + b < zlen X).
        { intros L b I Hb. destruct (HD L I) as (XL & H & v & EXL & DL & HX & EM & NH & Iv & D). destruct D as (_ & D & _). cbn [symmetric_part nrows] in D. rewrite D, NH in Hb.
          assert (Hst : 0 <= start L) by (destruct (HA L) as (_ & G); [cbn [snd]; rewrite EL; exact I|]; lia).
          specialize (HX b Hb). assert (nth_error X (Z.to_nat (start L + b)) <> None) as N by (rewrite HX; apply nth_error_Some; unfold zlen in DL; lia).
          apply nth_error_Some in N. unfold zlen. lia. }
        rewrite (turned_bracket q); [rewrite <- Rmult_assoc, sgn_sq; ring|].
        intros x y Hx Hy. apply (uniform_matrix RP CG s an lb nu_min nu_max v_min v_max lo hi Hn Hv Hlh X EX q (g_rat_TRop s) T HQ ET); now apply RNG.
      + specialize (HM' L1 L2 n1 n2 J1 J2). rewrite A1, A2, B1, B2 in HM'. rewrite <- HM' by assumption. unfold element. now rewrite A1, A2.
  Qed.

  (** If the words of the transition operator are all even or all odd: strengths
      between levels, and amplitudes but for their sign, are the same. *)
  Theorem C91_transitions : forall m m' ev M Lv s' o ev' M' Lv' s'' o', sound m -> sound m' -> Op_Tame op = true ->
    run m op = (Ok (ev, Some M, Lv), s', o) -> run m' op' = (Ok (ev', Some M', Lv'), s'', o') ->
    exists start dim, array_blocks M start dim /\ array_blocks M' start dim /\
      forall L1 L2 vals1 vals2, In (L1, vals1) (combine Lv ev) -> In (L2, vals2) (combine Lv ev) ->
        (forall x1 x2, level_strength M' start L1 vals1 x1 L2 vals2 x2 = level_strength M start L1 vals1 x1 L2 vals2 x2) /\
        (forall n1 n2, occurs_once vals1 n1 -> occurs_once vals2 n2 -> Rabs (element M' start L1 n1 L2 n2) = Rabs (element M start L1 n1 L2 n2)).
  Proof.
    intros m m' ev M Lv s' o ev' M' Lv' s'' o' S S' HT H H'.
    destruct (mirror_arrays _ _ _ _ _ _ _ _ _ _ _ _ S S' HT H H') as (_ & _ & _ & _ & T & start & dim & vec & vec' & HA & HA' & HD & HM).
    exists start, dim. split; [exact HA|]. split; [exact HA'|]. intros L1 L2 vals1 vals2 J1 J2.
    destruct (HD _ _ J1) as (Z1 & A1 & N1 & Y1 & D1 & D1'). destruct (HD _ _ J2) as (Z2 & A2 & N2 & Y2 & D2 & D2'). split.
    - intros x1 x2.
      pose proof (same_strength A1 A2 vals1 vals2 (vec L1) (vec L2) (vec' L1) (vec' L2) T (start L2) (start L1) x1 x2 Y1 Y2 D1 D1' D2 D2') as SS.
      assert (G : forall (Y : block_array) (B : Z -> Z -> R), (forall k1 k2, 0 <= k1 < dim L1 -> 0 <= k2 < dim L2 -> (element Y start L1 (k1 + 1) L2 (k2 + 1) ^ 2 = B k2 k1 ^ 2)%R) ->
          level_strength Y start L1 vals1 x1 L2 vals2 x2
          = total (fun k1 => total (fun k2 => at_level vals1 x1 k1 * at_level vals2 x2 k2 * B k2 k1 ^ 2)%R (nrows A2)) (nrows A1)).
      { intros Y B HY. unfold level_strength. rewrite Z1, Z2, <- N1, <- N2.
        apply total_ext. intros k1 Hk1. apply total_ext. intros k2 Hk2. rewrite HY by congruence.
        unfold at_level. destruct (Req_EM_T _ x1), (Req_EM_T _ x2); ring. }
      rewrite (G M (fun k2 k1 => bracket (vec L2) k2 T (start L2) (start L1) (vec L1) k1)), (G M' (fun k2 k1 => bracket (vec' L2) k2 T (start L2) (start L1) (vec' L1) k1)); [symmetry; exact SS| |];
        intros k1 k2 H1 H2; destruct (HM L1 L2 (k1 + 1) (k2 + 1) (in_combine_l _ _ _ _ J1) (in_combine_l _ _ _ _ J2) ltac:(lia) ltac:(lia)) as (F & F');
        replace (k1 + 1 - 1) with k1 in F, F' by lia; replace (k2 + 1 - 1) with k2 in F, F' by lia.
      + now rewrite F'.
      + rewrite F, Rpow_mult_distr. replace (sign_of q ^ 2)%R with 1%R by (destruct q; cbn; ring). ring.
    - intros n1 n2 O1 O2. pose proof (proj1 O1) as B1. pose proof (proj1 O2) as B2. rewrite Z1 in B1. rewrite Z2 in B2.
      destruct (HM L1 L2 n1 n2 (in_combine_l _ _ _ _ J1) (in_combine_l _ _ _ _ J2) B1 B2) as (-> & ->).
      rewrite Rabs_mult. replace (Rabs (sign_of q)) with 1%R by (unfold sign_of, Rabs; destruct q; destruct (Rcase_abs _); lra). rewrite Rmult_1_l.
      destruct (same_amplitude A1 A2 vals1 vals2 (vec L1) (vec L2) (vec' L1) (vec' L2) T (start L2) (start L1) (n1 - 1) (n2 - 1) Y1 Y2 D1 D1' D2 D2' ltac:(lia) ltac:(lia)
        (once_simple _ _ O1) (once_simple _ _ O2)) as [-> | ->]; [reflexivity|symmetry; apply Rabs_Ropp].
  Qed.

  (** The moment of a level: with the opposite sign if the transition operator is
      odd, whatever the signs of the eigenvectors. *)
  Theorem C91_moments : forall m m' ev M Lv s' o ev' M' Lv' s'' o', sound m -> sound m' -> Op_Tame op = true ->
    run m op = (Ok (ev, Some M, Lv), s', o) -> run m' op' = (Ok (ev', Some M', Lv'), s'', o') ->
    exists start dim, array_blocks M start dim /\ array_blocks M' start dim /\
      forall L vals n, In (L, vals) (combine Lv ev) -> occurs_once vals n ->
        element M' start L n L n = (if q then - element M start L n L n else element M start L n L n)%R.
  Proof.
    intros m m' ev M Lv s' o ev' M' Lv' s'' o' S S' HT H H'.
    destruct (mirror_arrays _ _ _ _ _ _ _ _ _ _ _ _ S S' HT H H') as (_ & _ & _ & _ & T & start & dim & vec & vec' & HA & HA' & HD & HM).
    exists start, dim. split; [exact HA|]. split; [exact HA'|]. intros L vals n J O.
    destruct (HD _ _ J) as (Z1 & A1 & N1 & Y1 & D1 & D1'). pose proof (proj1 O) as B. rewrite Z1 in B.
    destruct (HM L L n n (in_combine_l _ _ _ _ J) (in_combine_l _ _ _ _ J) B B) as (-> & ->).
    rewrite (same_moment A1 vals (vec L) (vec' L) T (start L) (start L) (n - 1) Y1 D1 D1' ltac:(lia) (once_simple _ _ O)). destruct q; cbn; ring.
  Qed.

  (** If no level occurs twice, the whole report is the same. *)
  Theorem C91_report : forall m m' ev M Lv s' o ev' M' Lv' s'' o', sound m -> sound m' -> Op_Tame op = true ->
    (forall vals, In vals ev -> NoDup vals) ->
    (g_rat_lst s <> [] \/ 0 < fr -> ignores_sign (g_rat_fun s)) -> (g_amp_lst s <> [] -> ignores_sign (g_amp_fun s)) ->
    run m op = (Ok (ev, Some M, Lv), s', o) -> run m' op' = (Ok (ev', Some M', Lv'), s'', o') -> s'' = s' /\ o' = o.
  Proof.
    intros m m' ev M Lv s' o ev' M' Lv' s'' o' S S' HT ND HR HP H H'.
    destruct (mirror_arrays _ _ _ _ _ _ _ _ _ _ _ _ S S' HT H H') as (-> & <- & ES & EL & T & start & dim & vec & vec' & HA & HA' & HD & HM).
    apply parts' in H. apply parts' in H'. destruct H as (ebs & s1 & o1 & o2 & ED & EE & -> & Q). destruct H' as (ebs' & s1' & o1' & o2' & ED' & EE' & -> & Q').
    rewrite EE in EE'. injection EE' as <- <-.
    destruct Q as (NE & a & fs & _ & _ & Q). destruct Q' as (_ & a' & fs' & _ & _ & Q').
    assert (Pos : forall Y z s' o2, shows flt fr s Y Lv z = (Ok tt, s', o2) -> (nrows (fst Y) =? 0) = false).
    { clear - NE. intros Y z s' o2 Q. unfold shows in Q.
      apply pbind_inv in Q. destruct Q as [([] & s2 & o3 & o4 & _ & Q & _) | (e & _ & X)]; [|discriminate].
      apply pbind_inv in Q. destruct Q as [([] & s3 & o5 & o6 & Q2 & Q & _) | (e & _ & X)]; [|discriminate].
      unfold Show_Rats in Q2. unfold Show_Amps in Q. unfold pbind at 1, pget in Q2. unfold pbind at 1, pget in Q. cbn [default] in Q, Q2.
      destruct (nrows (fst Y) =? 0) eqn:N0; [exfalso|reflexivity].
      unfold Show_Mels in Q, Q2. rewrite N0 in Q, Q2. destruct (g_rat_lst s) as [|d l]; [|discriminate]. destruct (g_amp_lst s) as [|d l]; [|discriminate]. discriminate. }
    assert (AL : alike M M').
    { split; [exact ES|]. split; [rewrite (Pos _ _ _ _ Q), (Pos _ _ _ _ Q'); reflexivity|]. intros L1 L2 J1 J2.
      do 2 eexists. split; [exact (block_val M start dim HA L1 L2 J1 J2)|]. rewrite ES in J1, J2. split; [exact (block_val M' start dim HA' L1 L2 J1 J2)|].
      rewrite <- ES, EL in J1, J2. cbn [nrows ncols ent]. split; [reflexivity|]. split; [reflexivity|]. intros i j Hi Hj.
      destruct (C38_Lvals _ _ _ _ _ _ _ _ _ _ _ _ _ ED) as (_ & _ & LE & _).
      destruct (combine_in_l Lv ev L1 (eq_sym LE) J1) as (v1 & I1). destruct (combine_in_l Lv ev L2 (eq_sym LE) J2) as (v2 & I2).
      destruct (HD _ _ I1) as (Z1 & A1 & N1 & Y1 & D1 & D1'). destruct (HD _ _ I2) as (Z2 & A2 & N2 & Y2 & D2 & D2').
      pose proof (once_simple _ (j + 1) (nodup_once v1 (j + 1) (ND _ (in_combine_r _ _ _ _ I1)) ltac:(lia))) as O1.
      pose proof (once_simple _ (i + 1) (nodup_once v2 (i + 1) (ND _ (in_combine_r _ _ _ _ I2)) ltac:(lia))) as O2.
      destruct (HM L1 L2 (j + 1) (i + 1) J1 J2 ltac:(lia) ltac:(lia)) as (F & F'). unfold element in F, F'.
      replace (start L2 + (i + 1) - 1) with (start L2 + i) in F, F' by lia. replace (start L1 + (j + 1) - 1) with (start L1 + j) in F, F' by lia. rewrite F, F'.
      destruct (same_amplitude A1 A2 v1 v2 (vec L1) (vec L2) (vec' L1) (vec' L2) T (start L2) (start L1) (j + 1 - 1) (i + 1 - 1) Y1 Y2 D1 D1' D2 D2' ltac:(lia) ltac:(lia) O1 O2) as [-> | ->];
        destruct q; cbn [sign_of]; [right|left|left|right]; ring. }
    assert (RS : rescaled s s1) by (pose proof (rescales_eig_stage flt fe s ev Lv s) as R0; rewrite EE in R0; exact R0).
    assert (SH : shows flt fr s M Lv s1 = shows flt fr s M' Lv s1).
    { unfold shows.
      assert (F1 : (if 0 <? fr then fit_rates M Lv else pret tt) s1 = (if 0 <? fr then fit_rates M' Lv else pret tt) s1).
      { destruct (0 <? fr) eqn:Fr; [|reflexivity]. apply fit_same; [exact AL|exact EL|].
        destruct RS as (x & y & z & ->). replace (g_rat_fun _) with (g_rat_fun s) by (now destruct s). apply HR. right. lia. }
      unfold pbind at 1. rewrite F1. unfold pbind at 2. destruct ((if 0 <? fr then fit_rates M' Lv else pret tt) s1) as [[[[]|e] s2] o3] eqn:F2; [|reflexivity].
      assert (RS2 : rescaled s s2).
      { eapply rescaled_trans; [exact RS|]. destruct (0 <? fr); [|unfold pret in F2; injection F2 as <- _; apply rescaled_refl].
        pose proof (rescales_fit_rat M' Lv s1) as K0. rewrite F2 in K0. exact K0. }
      assert (FR : Show_Rats flt M (Some (g_rat_lst s)) (Some (g_rat_num s)) s2 = Show_Rats flt M' (Some (g_rat_lst s)) (Some (g_rat_num s)) s2).
      { unfold Show_Rats, pbind, pget. cbn [default]. destruct (g_rat_lst s) as [|d l] eqn:GL; [reflexivity|].
        rewrite (mels_same flt M M' (g_rat_fun s2)); [reflexivity|exact AL|].
        destruct RS2 as (x & y & z & ->). replace (g_rat_fun _) with (g_rat_fun s) by (now destruct s). apply HR. left. congruence. }
      unfold pbind. rewrite FR. destruct (Show_Rats flt M' _ _ s2) as [[[[]|e] s3] o4] eqn:F3; [|reflexivity].
      assert (s3 = s2) as -> by (pose proof (keeps_Show_Rats flt M' (Some (g_rat_lst s)) (Some (g_rat_num s)) s2) as K0; rewrite F3 in K0; exact K0).
      assert (FA : Show_Amps flt M (Some (g_amp_lst s)) (Some (g_amp_num s)) s2 = Show_Amps flt M' (Some (g_amp_lst s)) (Some (g_amp_num s)) s2).
      { unfold Show_Amps, pbind, pget. cbn [default]. destruct (g_amp_lst s) as [|d l] eqn:GL; [reflexivity|].
        rewrite (mels_same flt M M' (g_amp_fun s2)); [reflexivity|exact AL|].
        destruct RS2 as (x & y & z & ->). replace (g_amp_fun _) with (g_amp_fun s) by (now destruct s). apply HP. congruence. }
      rewrite FA. reflexivity. }
    rewrite <- SH, Q in Q'. injection Q' as <- <-. auto.
  Qed.
End Runs.

(** ** Cases *)

Definition one_cg (_ _ _ _ _ _ _ _ _ : Z) : res R := Ok 1%R.
Definition turning (c : R) : OperatorSum := [(CNum c, [OSph SpHarm_310])].

Lemma turning_mirrored c : mirrored (turning c) (turning (- c)).
Proof. repeat constructor. Qed.

Lemma harmonic_matrix v_min v_max : 0 <= v_min <= v_max -> exists S, RepSO5r3_Prod one_cg (map YSym [OSph SpHarm_310]) v_min v_max 0 0 = Ok S /\
  forall i j vf af Lf vi ai Li, 0 <= i -> 0 <= j -> nth_error (lbs v_min v_max 0 0) (Z.to_nat i) = Some (vf, af, Lf) -> nth_error (lbs v_min v_max 0 0) (Z.to_nat j) = Some (vi, ai, Li) ->
    ent S i j = me vf 3 vi.
Proof.
  intros Hv. cbn [map]. rewrite C51_product_single by lia. cbn [ys_mat SpHarm_Table].
  assert (ST : lbsSO5r3_rngVvarL v_min v_max 0 (Some 0) = Ok (lbs v_min v_max 0 0)) by (apply lbs_rngVvarL_some; lia).
  assert (V : forall vf af Lf vi ai Li, In (vf, af, Lf) (lbs v_min v_max 0 0) -> In (vi, ai, Li) (lbs v_min v_max 0 0) -> ME_SO5r3 one_cg vf af Lf 3 1 0 vi ai Li = Ok (Some (me vf 3 vi))).
  { intros vf af Lf vi ai Li Hf Hi. apply in_lbs in Hf. apply in_lbs in Hi. destruct (me_ok vf 3 vi) as (E & _); [lia|lia|lia|]. unfold ME_SO5r3, one_cg. cbn [bind]. rewrite E. cbn. now rewrite Rmult_1_l. }
  assert (EX : exists S, RepSO5_Y one_cg 3 1 0 v_min v_max 0 0 = Ok S).
  { unfold RepSO5_Y. rewrite ST. cbn [bind].
    rewrite (mapM_ok _ (fun i : label => map (fun j : label => let '(vf, af, Lf) := i in let '(vi, ai, Li) := j in me vf 3 vi) (lbs v_min v_max 0 0))); [eexists; reflexivity|].
    intros [[vf af] Lf] Hf. apply mapM_ok. intros [[vi ai] Li] Hi. rewrite V by assumption. reflexivity. }
  destruct EX as (S & ES). exists S. split; [exact ES|]. intros i j vf af Lf vi ai Li Hi Hj Ei Ej.
  destruct (C51_matrix _ _ _ _ _ _ _ _ _ _ ST ES) as (_ & _ & K). specialize (K i j _ _ _ _ _ _ Hi Hj Ei Ej).
  rewrite V in K by (eapply nth_error_In; eassumption). now injection K as <-.
Qed.

(** The states of angular momentum 0 and seniority up to 3: 0 and 3. *)
Lemma two_states : lbs 0 3 0 0 = [(0, 1, 0); (3, 1, 0)].
Proof. reflexivity. Qed.

Definition plain_radial (_ : list rsym) (_ _ : R) (_ _ _ _ : Z) : res (mat R) := Ok (eye 1).

Lemma turning_matrix (s : settings) c : g_lam_fun s = lambda_acm_fun -> c <> 0%R ->
  exists D x y, code_matrices plain_radial one_cg s (turning c) 1 (5 / 2) 0 0 0 3 0 (Some 0) = Ok D /\ nrows D = 2 /\ ncols D = 2 /\
    ent D 0 0 = 0%R /\ ent D 1 1 = 0%R /\ ent D 0 1 = (c * x)%R /\ ent D 1 0 = (c * y)%R /\ (0 < x)%R /\ (0 < y)%R.
Proof.
  intros HL Hc. set (a := mkXA 1 (5 / 2) 0 0 0 3 0 0). set (w := [OSph SpHarm_310]).
  destruct (harmonic_matrix 0 3 ltac:(lia)) as (S & ES & HS). rewrite two_states in HS. fold w in ES.
  assert (Ha : FullOpsBlocks.valid a) by (unfold FullOpsBlocks.valid; cbn; lia).
  assert (El : lbsSO5r3_rngVvarL 0 3 0 (Some 0) = Ok [(0, 1, 0); (3, 1, 0)]) by reflexivity.
  assert (LAM : forall v al L, In (v, al, L) [(0, 1, 0); (3, 1, 0)] -> exists k, g_lam_fun s v = Ok k).
  { intros v al L [E|[E|[]]]; injection E as <- <- <-; rewrite HL; eexists; reflexivity. }
  destruct (C52_twin_defined plain_radial one_cg (g_lam_fun s) [] w a _ S ltac:(cbn; lia) El ltac:(cbn; lia) ltac:(cbn; lia) ES) as (T & ET).
  { intros i j vf af Lf vi ai Li Hi Hj Ei Ej. destruct (LAM vi ai Li) as (li & E1); [eapply nth_error_In; eassumption|]. destruct (LAM vf af Lf) as (lf & E2); [eapply nth_error_In; eassumption|].
    exists li, lf. split; [exact E1|]. split; [exact E2|]. intros _. exists (eye 1). repeat split. }
  destruct (C52_twin_entries plain_radial one_cg (g_lam_fun s) [] w a _ T El ET) as (T1 & T2 & S' & ES' & V). cbn [a xa_v_min xa_v_max xa_L_min xa_L_max] in ES'. rewrite ES in ES'. injection ES' as <-.
  pose proof (C35_segment plain_radial one_cg (g_lam_fun s) a Ha w ltac:(repeat constructor)) as SG. cbv beta in SG.
  change (radial_part w) with (@nil rsym) in SG. change (spherical_part w) with w in SG. rewrite ET in SG.
  destruct (fst (RepXspace_Prod plain_radial one_cg w a (mkX (g_lam_fun s) []))) as [M|] eqn:EM; [|contradiction]. cbn [same] in SG.
  assert (EX : lbsXspace 0 0 0 3 0 (Some 0) = Ok [(0, (0, 1, 0)); (0, (3, 1, 0))]) by reflexivity.
  set (X := [(0, (0, 1, 0)); (0, (3, 1, 0))]) in EX.
  destruct (C54_linear plain_radial one_cg (g_lam_fun s) 1 (5 / 2) 0 0 0 3 0 0 ltac:(lia) ltac:(lia) ltac:(lia) (turning c) X EX) as ((_ & W) & VV). cbv beta in W, VV.
  destruct W as (D & ED). { intros t [<-|[]]. exists M. exact EM. }
  destruct (VV D ED) as (Ms & F & D1 & D2 & HV). inversion F as [|t M' ts Ms' E1 F1]; subst. inversion F1; subst. cbn [turning snd] in E1. change (fst (RepXspace_Prod plain_radial one_cg w a (mkX (g_lam_fun s) [])) = Ok M') in E1. rewrite EM in E1. injection E1 as <-.
  change (zlen X) with 2 in *.
  assert (HD : forall i j, 0 <= i < 2 -> 0 <= j < 2 -> ent D i j = (c * ent M i j)%R).
  { intros i j Hi Hj. destruct (two_cases j Hj) as [-> | ->]; [rewrite (HV i 0 (0, (0, 1, 0)))|rewrite (HV i 1 (0, (3, 1, 0)))]; try lia; try reflexivity; cbn; ring. }
  assert (Z0 : forall i, 0 <= i < 2 -> ent M i i = 0%R).
  { intros i Hi. apply (C91_words plain_radial one_cg s 1 (5 / 2) 0 0 0 3 0 0 ltac:(lia) ltac:(lia) ltac:(lia) X EX w M i i EM); try exact Hi. now destruct (two_cases i Hi) as [-> | ->]. }
  assert (Q : forall i j vf af Lf vi ai Li, 0 <= i < 2 -> 0 <= j < 2 -> nth_error [(0, 1, 0); (3, 1, 0)] (Z.to_nat i) = Some (vf, af, Lf) -> nth_error [(0, 1, 0); (3, 1, 0)] (Z.to_nat j) = Some (vi, ai, Li) ->
    (0 < me vf 3 vi)%R -> (0 < ent M i j)%R).
  { intros i j vf af Lf vi ai Li Hi Hj Ei Ej P. destruct SG as (G1 & G2 & GE). change (zlen [(0, 1, 0); (3, 1, 0)] * (xa_nu_max a - xa_nu_min a + 1)) with 2 in T1, T2. rewrite GE by lia.
    destruct (V i j 0 0 vf af Lf vi ai Li ltac:(lia) ltac:(lia) Ei Ej ltac:(cbn; lia) ltac:(cbn; lia)) as (li & lf & _ & _ & _ & V2). cbv zeta in V2.
    rewrite (HS i j _ _ _ _ _ _ (proj1 Hi) (proj1 Hj) Ei Ej) in V2. cbn [filter harmonic_symbol w length pow] in V2. change (xa_nu_max a - xa_nu_min a + 1) with 1 in V2.
    assert (PP : (0 < me vf 3 vi / (4 * PI * 1))%R) by (apply Rdiv_lt_0_compat; [exact P|pose proof PI_RGT_0; lra]).
    destruct V2 as (m & Em & V2); [lra|]. injection Em as <-. replace (i * 1 + 0) with i in V2 by lia. replace (j * 1 + 0) with j in V2 by lia. rewrite V2. cbn [eye ent Z.eqb]. lra. }
  exists D, (ent M 0 1), (ent M 1 0). split; [exact ED|]. split; [exact D1|]. split; [exact D2|]. rewrite !HD, !Z0 by lia.
  split; [ring|]. split; [ring|]. split; [reflexivity|]. split; [reflexivity|].
  assert (PM : forall u v, 0 <= u -> 0 <= v -> 3 <= u + v /\ v <= u + 3 /\ u <= v + 3 /\ (u + 3 + v) mod 2 = 0 -> (0 < me u 3 v)%R).
  { intros u v Hu Hv N. destruct (C29_ME_total u 3 v Hu ltac:(lia) Hv) as (m & E & P & K). destruct (me_ok u 3 v Hu ltac:(lia) Hv) as (E' & _). rewrite E in E'. injection E' as <-. apply K in N. lra. }
  split; [apply (Q 0 1 0 1 0 3 1 0)|apply (Q 1 0 3 1 0 0 1 0)]; try lia; try reflexivity; apply PM; try lia; cbn; lia.
Qed.

(** A machine that diagonalises 2 x 2 matrices without diagonal. *)
Definition mixing_vectors (y : R) : mat R :=
  mkMat 2 2 (fun i j => if i =? 0 then sqrt (1 / 2) else if Rle_dec 0 y then (if j =? 0 then - sqrt (1 / 2) else sqrt (1 / 2)) else (if j =? 0 then sqrt (1 / 2) else - sqrt (1 / 2)))%R.
Definition mixing_eigh (A : mat R) : res (list R * mat R) :=
  if (nrows A =? 2) && (ncols A =? 2) then
    if Req_EM_T (ent A 0 0) 0 then if Req_EM_T (ent A 1 1) 0 then Ok ([- Rabs (ent A 0 1); Rabs (ent A 0 1)]%R, mixing_vectors (ent A 0 1)) else Raise ValueError else Raise ValueError
  else Raise ValueError.
Definition mixing : machine := mkMachine mixing_eigh inv0 (fun _ _ => 0%R).

Lemma mixing_sound : sound mixing.
Proof.
  split; [|split].
  - split; [|apply inv0_sound]. intros M vals P Sq E. cbn [mixing m_eigh] in E. unfold mixing_eigh in E. destruct (_ && _) eqn:B; [|discriminate].
    destruct (Req_EM_T _ 0); [|discriminate]. destruct (Req_EM_T _ 0); [|discriminate]. injection E as <- <-. cbn. lia.
  - intros A vals P Sq Sy E. cbn [mixing m_eigh] in E. unfold mixing_eigh in E. destruct (_ && _) eqn:B; [|discriminate].
    destruct (Req_EM_T (ent A 0 0) 0) as [Z0|]; [|discriminate]. destruct (Req_EM_T (ent A 1 1) 0) as [Z1|]; [|discriminate]. injection E as <- <-.
    assert (N : nrows A = 2) by lia. unfold eigen_decomposition. rewrite N. cbv zeta.
    assert (Y : ent A 1 0 = ent A 0 1) by (apply Sy; lia). set (y := ent A 0 1) in *.
    assert (H : (sqrt (1 / 2) * sqrt (1 / 2) = 1 / 2)%R) by (apply sqrt_sqrt; lra). set (h := sqrt (1 / 2)) in *.
    split; [reflexivity|]. split; [reflexivity|]. split; [reflexivity|]. split.
    { repeat (apply SSorted_cons || apply SSorted_nil || apply Forall_cons || apply Forall_nil). pose proof (Rabs_pos y). lra. }
    split.
    + intros i j Hi Hj. rewrite total2. unfold mixing_vectors. cbn [ent]. fold h.
      destruct (two_cases i Hi) as [-> | ->], (two_cases j Hj) as [-> | ->]; cbn [Z.eqb Pos.eqb]; change (nth (Z.to_nat 0) [(- Rabs y)%R; Rabs y] 0%R) with (- Rabs y)%R; change (nth (Z.to_nat 1) [(- Rabs y)%R; Rabs y] 0%R) with (Rabs y);
        rewrite ?Z0, ?Z1, ?Y; fold y; destruct (Rle_dec 0 y); (rewrite (Rabs_right y) by lra) || (rewrite (Rabs_left y) by lra); ring.
    + intros i j Hi Hj. rewrite !total2. unfold mixing_vectors. cbn [ent]. fold h.
      destruct (two_cases i Hi) as [-> | ->], (two_cases j Hj) as [-> | ->]; cbn [Z.eqb Pos.eqb]; destruct (Rle_dec 0 y); lra.
  - apply inv0_sound.
Qed.

Section Case.
  Variable flt : text -> R -> text.

  Lemma turning_run c : c <> 0%R -> exists e, (0 < e)%R /\ (c <> 0 -> e <> 0)%R /\
    run_on flt plain_radial one_cg mixing (turning c) 1 (5 / 2) 0 0 0 3 0 0 0 None imported
    = (Ok ([[- e; e]]%R, None, [0]), imported, [eigs_header flt imported (- e); values_line flt imported 4 (- e) 0 [- e; e]%R]).
  Proof.
    intros Hc. destruct (turning_matrix imported c eq_refl Hc) as (D & x & y & ED & D1 & D2 & Z0 & Z1 & E01 & E10 & Px & Py).
    set (RepX := code_matrices plain_radial one_cg) in *.
    set (e := Rabs (ent (symmetric_part D) 0 1)). assert (He : (0 < e)%R).
    { unfold e. apply Rabs_pos_lt. cbn [symmetric_part ent]. rewrite E01, E10. intros Q. apply Hc. assert (Q2 : (c * (x + y) = 0)%R) by lra. apply Rmult_integral in Q2. destruct Q2; [assumption|lra]. }
    exists e. split; [exact He|]. split; [intros _; lra|].
    assert (EE : Eigenfiddle (m_eigh mixing) D = Ok ([- e; e]%R, mixing_vectors (ent (symmetric_part D) 0 1))).
    { rewrite fiddle_symmetric by congruence. cbn [mixing m_eigh]. unfold mixing_eigh. cbn [symmetric_part nrows ncols]. rewrite D1. cbn [Z.eqb Pos.eqb andb].
      cbn [symmetric_part ent]. rewrite Z0, Z1. destruct (Req_EM_T _ 0) as [_|N]; [|exfalso; apply N; lra]. reflexivity. }
    assert (DI : exists P, dig RepX (m_eigh mixing) (turning c) 1 (5 / 2) 0 0 0 3 imported 0 None = Ok ([[- e; e]%R], [P], [0])).
    { eexists. unfold dig.
      assert (G : forall (F : Z -> option Z -> res (mat R)) (Eg : mat R -> res (list R * mat R)) P, F 0 None = Ok D -> Eg D = Ok ([- e; e]%R, P) ->
        DigXspace F Eg true 0 0 0 3 0 None = Ok ([[- e; e]%R], [P], [0])).
      { intros F Eg P F1 F2. unfold DigXspace. rewrite !require_range_ok by lia. cbn [bind]. change (py_range 0 (0 + 1)) with [0]. cbn [dig_tame].
        change (dimSO5r3_rngV 0 3 0) with (Ok 2). cbn [bind Z.ltb Z.compare]. rewrite F1. cbn [bind]. rewrite F2. reflexivity. }
      change (Op_Tame (turning c)) with true. apply G; [exact ED|exact EE]. }
    destruct DI as (P & DI).
    unfold run_on. rewrite run_stages. fold RepX. change (checks 0 0 0 3 0 0 imported 0 None) with (Ok tt). cbn [bind]. rewrite DI, pbind_ok.
    assert (ES : eig_stage flt 0 imported [[- e; e]%R] [0] imported = (Ok tt, imported, [eigs_header flt imported (- e); values_line flt imported 4 (- e) 0 [- e; e]%R])).
    { unfold eig_stage. change (0 <? g_eig_num imported) with true. change (0 <? 0) with false. cbv iota. unfold pbind at 1, pret at 1.
      destruct (C62_shown flt [[- e; e]%R] [0] 4 None None imported (- e)%R ltac:(lia) ltac:(discriminate) Logic.I) as (keep & HK & SH); [exists 0; split; [now left|cbn; lia]|reflexivity|].
      change (g_eig_num imported) with 4. unfold pbind. rewrite SH. unfold pret. cbn [app combine filter]. replace (keep (0, [- e; e]%R)) with true; [reflexivity|]. symmetry. apply HK. cbn. lia. }
    unfold pbind at 1. rewrite ES. unfold pbind at 1, rat_stage. change ((0 <? zlen (g_rat_lst imported)) || (0 <? zlen (g_amp_lst imported))) with false. reflexivity.
  Qed.

  (** Two runs that meet the hypotheses of [C91_levels] and [C91_listing]: the
      matrices differ, the levels and the listing do not. *)
  Example C91_listing_case : exists e o, (0 < e)%R /\ sound mixing /\ mirrored (turning 1) (turning (- 1)) /\ turning 1 <> turning (- 1) /\ length o = 2%nat /\
    run_on flt plain_radial one_cg mixing (turning 1) 1 (5 / 2) 0 0 0 3 0 0 0 None imported = (Ok ([[- e; e]]%R, None, [0]), imported, o) /\
    run_on flt plain_radial one_cg mixing (turning (- 1)) 1 (5 / 2) 0 0 0 3 0 0 0 None imported = (Ok ([[- e; e]]%R, None, [0]), imported, o).
  Proof.
    destruct (turning_run 1 ltac:(lra)) as (e & He & _ & R1). destruct (turning_run (- 1) ltac:(lra)) as (e' & _ & _ & R2).
    destruct mixing_sound as (_ & SE & _).
    destruct (C91_levels flt plain_radial one_cg _ _ 1 (5 / 2) 0 0 0 3 0 0 0 None imported (turning_mirrored 1) _ _ _ _ _ _ _ _ _ _ _ _ SE SE R1 R2) as (_ & Q). injection Q as _ ->.
    exists e. eexists. split; [exact He|]. split; [exact mixing_sound|]. split; [apply turning_mirrored|]. split; [|split; [|split; [exact R1|exact R2]]]; [|reflexivity].
    intros Q. injection Q as Q. lra.
  Qed.

  (** And the matrices: not zero, and of opposite sign. *)
  Example C91_matrices_case : exists D D' x, x <> 0%R /\
    code_matrices plain_radial one_cg imported (turning 1) 1 (5 / 2) 0 0 0 3 0 (Some 0) = Ok D /\
    code_matrices plain_radial one_cg imported (turning (- 1)) 1 (5 / 2) 0 0 0 3 0 (Some 0) = Ok D' /\ ent D 0 1 = x /\ ent D' 0 1 = (- x)%R.
  Proof.
    destruct (turning_matrix imported 1 eq_refl ltac:(lra)) as (D & x & y & ED & D1 & D2 & Z0 & Z1 & E01 & E10 & Px & Py).
    destruct (C91_matrices plain_radial one_cg imported 1 (5 / 2) 0 0 0 3 0 0 ltac:(lia) ltac:(lia) ltac:(lia) [(0, (0, 1, 0)); (0, (3, 1, 0))] eq_refl _ _ D (turning_mirrored 1) ED) as (D' & ED' & _ & _ & _ & _ & K).
    exists D, D', x. split; [lra|]. split; [exact ED|]. split; [exact ED'|]. split; [lra|]. rewrite (K 0 1) by (change (zlen _) with 2; lia). change (xorb _ _) with true. cbv iota. rewrite E01. ring.
  Qed.
End Case.

Section CaseRates.
  Variable flt : text -> R -> text.
  Variables (Gam : R -> R) (Msqrt Minv : mat R -> res (mat R)).
  Let RP := RadProd (Rep_elem Gam Msqrt Minv).
  Let RepX := code_matrices RP one_cg.

  (** The weight and a term that turns, in the space of seniority 0. *)
  Definition tilted (c : R) : OperatorSum := weight ++ turning c.
  Lemma tilted_mirrored c : mirrored (tilted c) (tilted (- c)).
  Proof. repeat constructor. Qed.
  Lemma tilted_matrix (s : settings) c : g_lam_fun s = lambda_acm_fun ->
    exists D, RepX s (tilted c) 1 (5 / 2) 0 1 0 0 0 None = Ok D /\ nrows D = 2 /\ ncols D = 2 /\
      forall i j, 0 <= i < 2 -> 0 <= j < 2 -> ent D i j = if i =? j then (if i =? 0 then 5 / 4 else 9 / 4)%R else 0%R.
  Proof.
    intros HL. destruct (weight_matrix Gam Msqrt Minv one_cg s HL) as (D0 & ED0 & N1 & N2 & DV). set (a := mkXA 1 (5 / 2) 0 1 0 0 0 0). set (w := [OSph SpHarm_310]).
    assert (Ha : FullOpsBlocks.valid a) by (unfold FullOpsBlocks.valid; cbn; lia).
    destruct (harmonic_matrix 0 0 ltac:(lia)) as (S & ES & HS). fold w in ES.
    assert (El : lbsSO5r3_rngVvarL 0 0 0 (Some 0) = Ok [(0, 1, 0)]) by reflexivity.
    destruct (C52_twin_defined RP one_cg (g_lam_fun s) [] w a _ S ltac:(cbn; lia) El ltac:(cbn; lia) ltac:(cbn; lia) ES) as (T & ET).
    { intros i j vf af Lf vi ai Li Hi Hj Ei Ej. assert (I1 : In (vf, af, Lf) [(0, 1, 0)]) by (eapply nth_error_In; eassumption). assert (I2 : In (vi, ai, Li) [(0, 1, 0)]) by (eapply nth_error_In; eassumption).
      destruct I1 as [I1|[]]. destruct I2 as [I2|[]]. injection I1 as <- <- <-. injection I2 as <- <- <-. rewrite HL. exists 0, 0. split; [reflexivity|]. split; [reflexivity|].
      intros N. exfalso. apply N. rewrite (HS i j 0 1 0 0 1 0) by assumption. destruct (me_ok 0 3 0 ltac:(lia) ltac:(lia) ltac:(lia)) as (E & _). change (ME_SO5red 0 3 0) with (Ok (Some 0%R)) in E. congruence. }
    pose proof (C35_segment RP one_cg (g_lam_fun s) a Ha w ltac:(repeat constructor)) as SG. cbv beta in SG.
    change (radial_part w) with (@nil rsym) in SG. change (spherical_part w) with w in SG. rewrite ET in SG.
    destruct (fst (RepXspace_Prod RP one_cg w a (mkX (g_lam_fun s) []))) as [M|] eqn:EM; [|contradiction]. clear SG.
    set (X := [(0, (0, 1, 0)); (1, (0, 1, 0))]). assert (EX : lbsXspace 0 1 0 0 0 (Some 0) = Ok X) by reflexivity.
    assert (ZM : forall i j, 0 <= i < 2 -> 0 <= j < 2 -> ent M i j = 0%R).
    { intros i j Hi Hj. apply (C91_words RP one_cg s 1 (5 / 2) 0 1 0 0 0 0 ltac:(lia) ltac:(lia) ltac:(lia) X EX w M i j EM Hi Hj).
      destruct (two_cases i Hi) as [-> | ->], (two_cases j Hj) as [-> | ->]; discriminate. }
    destruct (C54_linear RP one_cg (g_lam_fun s) 1 (5 / 2) 0 1 0 0 0 0 ltac:(lia) ltac:(lia) ltac:(lia) weight X EX) as ((W0 & _) & V0). cbv beta in W0, V0.
    destruct (C54_linear RP one_cg (g_lam_fun s) 1 (5 / 2) 0 1 0 0 0 0 ltac:(lia) ltac:(lia) ltac:(lia) (tilted c) X EX) as ((_ & W) & V). cbv beta in W, V.
    destruct W as (D & ED).
    { intros t [<-|[<-|[]]]; [|exists M; exact EM]. apply (W0 (ex_intro _ D0 ED0)). now left. }
    destruct (V0 D0 ED0) as (Ms0 & F0 & _ & _ & H0). destruct (V D ED) as (Ms & F & D1 & D2 & HV).
    inversion F0 as [|t0 A ts0 Ms0' E0 G0]; subst. inversion G0; subst. inversion F as [|t1 B ts1 Ms1 E1 G1]; subst. inversion G1 as [|t2 C ts2 Ms2 E2 G2]; subst. inversion G2; subst.
    cbn [snd] in E0, E1, E2. rewrite E0 in E1. injection E1 as <-. change (fst (RepXspace_Prod RP one_cg w a (mkX (g_lam_fun s) [])) = Ok C) in E2. rewrite EM in E2. injection E2 as <-.
    exists D. split; [exact ED|]. split; [exact D1|]. split; [exact D2|]. intros i j Hi Hj. rewrite <- DV by assumption. change (zlen X) with 2 in *.
    destruct (two_cases j Hj) as [-> | ->];
      [rewrite (HV i 0 (0, (0, 1, 0))), (H0 i 0 (0, (0, 1, 0)))|rewrite (HV i 1 (1, (0, 1, 0))), (H0 i 1 (1, (0, 1, 0)))]; try lia; try reflexivity;
      cbn [weighted weight tilted turning app combine map fold_right fst snd]; rewrite ZM by lia; ring.
  Qed.

  (** Two runs that meet the hypotheses of [C91_transitions], [C91_moments] and
      [C91_report], with different routines. *)
  Example C91_report_case : exists s M M' o,
    sound (choosing 1 1 0) /\ sound (choosing 1 (-1) 0) /\ mirrored (tilted 1) (tilted (- 1)) /\ tilted 1 <> tilted (- 1) /\ Op_Tame (tilted 1) = true /\
    (forall t, In t (g_rat_TRop s) -> word_turns (snd t) = false) /\
    (forall vals, In vals [[5 / 4; 9 / 4]]%R -> NoDup vals) /\ ignores_sign (g_rat_fun s) /\ g_amp_lst s = [] /\ length o = 2%nat /\
    run_on flt RP one_cg (choosing 1 1 0) (tilted 1) 1 (5 / 2) 0 1 0 0 0 0 0 None s = (Ok ([[5 / 4; 9 / 4]]%R, Some M, [0]), s, o) /\
    run_on flt RP one_cg (choosing 1 (-1) 0) (tilted (- 1)) 1 (5 / 2) 0 1 0 0 0 0 0 None s = (Ok ([[5 / 4; 9 / 4]]%R, Some M', [0]), s, o).
  Proof.
    set (s := rate_settings 1 2). destruct (tilted_matrix s 1 eq_refl) as (D & ED & D1 & D2 & DV). destruct (tilted_matrix s (- 1) eq_refl) as (D' & ED' & D1' & D2' & DV').
    assert (PF : plain_formats s (g_rat_format s) (chars "  B(E2: ") (chars ") = ") []) by (apply imported_formats).
    assert (QR : forall x, g_rat_fun s (g_rat_TRopAM s) 0 0 x = Ok (x ^ 2 * IZR 1 / IZR 1)%R) by (intros; reflexivity).
    destruct (one_run flt Gam Msqrt Minv one_cg s (tilted 1) D (5 / 4) (9 / 4) 1 1 0 eq_refl eq_refl eq_refl eq_refl eq_refl ED D1 D2 DV) as (M & start & dim & HA & D0 & EL & NR & EV & RUN); try lra; try (left; reflexivity).
    destruct (one_run flt Gam Msqrt Minv one_cg s (tilted (- 1)) D' (5 / 4) (9 / 4) 1 (-1) 0 eq_refl eq_refl eq_refl eq_refl eq_refl ED' D1' D2' DV') as (M' & start' & dim' & HA' & D0' & EL' & NR' & EV' & RUN'); try lra; try (left; reflexivity).
    specialize (RUN _ (shows_rate flt Gam Msqrt Minv one_cg s M start dim 1 2 _ HA D0 EL NR PF eq_refl eq_refl ltac:(lia) ltac:(lia) (QR _))).
    specialize (RUN' _ (shows_rate flt Gam Msqrt Minv one_cg s M' start' dim' 1 2 _ HA' D0' EL' NR' PF eq_refl eq_refl ltac:(lia) ltac:(lia) (QR _))).
    assert (S1 : sound (choosing 1 1 0)) by (apply choosing_sound; lra). assert (S2 : sound (choosing 1 (-1) 0)) by (apply choosing_sound; lra).
    assert (NDs : forall vals, In vals [[5 / 4; 9 / 4]]%R -> NoDup vals) by (intros vals [<- | []]; repeat constructor; cbn; lra).
    assert (EQ : (element M' start' 0 1 0 2 ^ 2 = element M start 0 1 0 2 ^ 2)%R).
    { rewrite EV, EV' by lia. rewrite !total2. unfold two_by_two, v_b2. cbn [ent]. change (1 - 1) with 0. change (2 - 1) with 1. cbn [Z.eqb Pos.eqb Z.sub Z.add Z.opp Pos.add Z.pos_sub Pos.pred_double]. ring. }
    rewrite EQ in RUN'.
    exists s, M, M'. eexists. split; [exact S1|]. split; [exact S2|]. split; [apply tilted_mirrored|]. split; [intros Q; injection Q as Q; lra|]. split; [reflexivity|].
    split; [change (g_rat_TRop s) with beta2; intros t [<-|[]]; reflexivity|]. split; [exact NDs|]. split; [apply C87_rates|]. split; [reflexivity|]. split; [|split; [exact RUN|exact RUN']]. reflexivity.
  Qed.
End CaseRates.

Print Assumptions C91_words.
Print Assumptions C91_matrices.
Print Assumptions C91_Hamiltonian.
Print Assumptions C91_RWC.
Print Assumptions C91_levels.
Print Assumptions C91_listing.
Print Assumptions C91_transitions.
Print Assumptions C91_moments.
Print Assumptions C91_report.
