(** C27 and C28: classification and encoding of operators. *)

From Coq Require Import Reals Lra.
From Coq Require Import Lia ZifyBool ZifyNat.
From Verif Require Import PyBase PyFacts RadialOps CGSO3 Operators OperatorSpec.
Open Scope Z_scope.
Ltac Zify.zify_post_hook ::= Z.div_mod_to_equations.

(** ** C27 *)
Lemma fold_zsum {A} (f : A -> Z) l x : fold_left (fun am t => am + f t) l x = x + zsum (map f l).
Proof.
  revert x. induction l as [|t l IH]; intros x; cbn [fold_left map]; [cbn; lia|].
  rewrite IH. unfold zsum. cbn [fold_right]. lia.
Qed.

Lemma am_of_spec s : am_of s = sym_AM s.
Proof. destruct s as [r|h| | | | | | ]; try reflexivity. now destruct h. Qed.

Lemma term_am_spec w : term_am w = word_AM w.
Proof.
  unfold term_am, word_AM. rewrite fold_zsum, Z.add_0_l. f_equal. apply map_ext. exact am_of_spec.
Qed.

Lemma sym_AM_nonneg s : 0 <= sym_AM s.
Proof. destruct s as [r|h| | | | | | ]; try (cbn; lia). destruct h; cbn; lia. Qed.

Lemma word_AM_nonneg w : 0 <= word_AM w.
Proof.
  unfold word_AM. induction w as [|s w IH]; cbn; [lia|]. pose proof (sym_AM_nonneg s).
  unfold zsum in IH. lia.
Qed.

Definition max_list (l : list Z) : Z := fold_right Z.max 0 l.

Lemma max_list_le l x : In x l -> x <= max_list l.
Proof.
  induction l as [|y l IH]; [intros []|]. cbn [max_list fold_right]. fold (max_list l).
  intros [->|H]; [lia|]. specialize (IH H). lia.
Qed.

Lemma max_list_in l : (forall x, In x l -> 0 <= x) -> l <> [] -> In (max_list l) l.
Proof.
  induction l as [|y l IH]; intros H N; [congruence|]. cbn.
  destruct l as [|z l].
  - cbn. left. specialize (H y (or_introl eq_refl)). lia.
  - specialize (IH (fun x Hx => H x (or_intror Hx)) ltac:(discriminate)).
    fold (max_list (z :: l)). destruct (Z.max_spec y (max_list (z :: l))) as [[_ ->]|[_ ->]]; [right; exact IH|left; reflexivity].
Qed.

Definition am_step (first : Z) (am : Z) : Z :=
  if (0 <=? first) && negb (first =? am) then - Z.max first am
  else if (first <? 0) && (- first <? am) then - am else first.

Ltac am := unfold am_step;
  repeat match goal with |- context [if ?b then _ else _] => destruct b eqn:? end; lia.

Lemma am_fold_neg l x : 0 < x -> (forall y, In y l -> 0 <= y) ->
  fold_left am_step l (- x) = - Z.max x (max_list l).
Proof.
  revert x. induction l as [|y l IH]; intros x Hx Hl; cbn [fold_left max_list fold_right]; [lia|].
  fold (max_list l). pose proof (Hl y (or_introl eq_refl)).
  assert (E : am_step (- x) y = - Z.max x y) by am. rewrite E.
  rewrite IH by (try lia; intros; apply Hl; now right). lia.
Qed.

Lemma am_fold l x : 0 <= x -> (forall y, In y l -> 0 <= y) ->
  ((forall y, In y l -> y = x) -> fold_left am_step l x = x) /\
  (~ (forall y, In y l -> y = x) -> fold_left am_step l x = - Z.max x (max_list l)).
Proof.
  revert x. induction l as [|y l IH]; intros x Hx Hl; cbn [fold_left].
  - split; [reflexivity|]. intros H. exfalso. apply H. intros y [].
  - pose proof (Hl y (or_introl eq_refl)) as Hy.
    assert (Hl' : forall z, In z l -> 0 <= z) by (intros; apply Hl; now right).
    destruct (Z.eq_dec y x) as [->|Ne].
    + assert (E : am_step x x = x) by am. rewrite E.
      destruct (IH x Hx Hl') as [A B]. split.
      * intros H. apply A. intros z Hz. apply H. now right.
      * intros H. rewrite B.
        -- cbn [max_list fold_right]. fold (max_list l). lia.
        -- intros G. apply H. intros z [<-|Hz]; [reflexivity|now apply G].
    + split; [intros H; exfalso; apply Ne; apply H; now left|].
      intros _. assert (E : am_step x y = - Z.max x y) by am. rewrite E.
      rewrite am_fold_neg by (try lia; assumption). cbn [max_list fold_right]. fold (max_list l). lia.
Qed.

Lemma Op_AM_fold t l : Op_AM (t :: l) = fold_left am_step (map (fun t => word_AM (snd t)) l) (word_AM (snd t)).
Proof.
  unfold Op_AM. rewrite term_am_spec. generalize (word_AM (snd t)).
  induction l as [|u l IH]; intros x; [reflexivity|]. cbn [fold_left map].
  rewrite term_am_spec. apply IH.
Qed.

(** All terms of the same angular momentum: Op_AM is it. *)
Theorem C27_AM_definite : forall (WOp : OperatorSum) (am : Z),
  WOp <> [] -> (forall c w, In (c, w) WOp -> word_AM w = am) -> Op_AM WOp = am.
Proof.
  intros [|[c w] l] am N H; [congruence|]. rewrite Op_AM_fold. cbn [snd].
  rewrite (H c w) by now left.
  assert (Ha : 0 <= am) by (rewrite <- (H c w) by (now left); apply word_AM_nonneg).
  apply am_fold; [exact Ha| |].
  - intros y Hy. apply in_map_iff in Hy. destruct Hy as ([c' w'] & <- & Hy). apply word_AM_nonneg.
  - intros y Hy. apply in_map_iff in Hy. destruct Hy as ([c' w'] & <- & Hy). cbn. apply (H c'). now right.
Qed.

(** Terms of different angular momenta: minus the largest, which is negative. *)
Theorem C27_AM_indefinite : forall (WOp : OperatorSum) c w c' w',
  In (c, w) WOp -> In (c', w') WOp -> word_AM w <> word_AM w' ->
  Op_AM WOp < 0 /\
  (exists c0 w0, In (c0, w0) WOp /\ Op_AM WOp = - word_AM w0) /\
  (forall c0 w0, In (c0, w0) WOp -> word_AM w0 <= - Op_AM WOp).
Proof.
  intros WOp c w c' w' H1 H2 N.
  set (ms := map (fun t : OperatorTerm => word_AM (snd t)) WOp).
  assert (Pos : forall y, In y ms -> 0 <= y).
  { intros y Hy. apply in_map_iff in Hy. destruct Hy as (t & <- & _). apply word_AM_nonneg. }
  assert (E : Op_AM WOp = - max_list ms).
  { destruct WOp as [|[d u] l]; [destruct H1|]. rewrite Op_AM_fold. cbn [snd].
    transitivity (- Z.max (word_AM u) (max_list (map (fun t : OperatorTerm => word_AM (snd t)) l))).
    2: { unfold ms. cbn [map max_list fold_right snd]. reflexivity. }
    apply am_fold; [apply word_AM_nonneg|intros y Hy; apply Pos; now right|].
    intros G. apply N.
    assert (K : forall c w, In (c, w) ((d, u) :: l) -> word_AM w = word_AM u).
    { intros x y [F|F]; [now injection F as _ <-|]. apply G. apply in_map_iff. exists (x, y). auto. }
    rewrite (K _ _ H1), (K _ _ H2). reflexivity. }
  assert (B : forall c0 w0, In (c0, w0) WOp -> word_AM w0 <= max_list ms).
  { intros c0 w0 H. apply max_list_le. apply in_map_iff. exists (c0, w0). auto. }
  rewrite E. split; [|split].
  - pose proof (B _ _ H1). pose proof (B _ _ H2). pose proof (word_AM_nonneg w).
    pose proof (word_AM_nonneg w'). lia.
  - assert (M : In (max_list ms) ms).
    { apply max_list_in; [exact Pos|]. unfold ms. destruct WOp; [destruct H1|discriminate]. }
    apply in_map_iff in M.
    destruct M as ([c0 w0] & M & Hin). exists c0, w0. split; [exact Hin|]. change (word_AM w0 = max_list ms) in M. now rewrite M.
  - intros c0 w0 H. pose proof (B _ _ H). lia.
Qed.

Theorem C27_AM_empty : Op_AM [] = 0 /\ Op_Parity [] = 0 /\ Op_Tame [] = true.
Proof. repeat split. Qed.

(** Op_Tame: exactly the sums without pi and [pi x pi]_L. *)
Theorem C27_tame : forall WOp,
  Op_Tame WOp = true <->
  forall c w, In (c, w) WOp -> ~ In Xspace_Pi w /\ ~ In Xspace_PiPi2 w /\ ~ In Xspace_PiPi4 w.
Proof.
  intros WOp. unfold Op_Tame. rewrite forallb_forall. split.
  - intros H c w Hin. specialize (H _ Hin). cbn in H. rewrite forallb_forall in H.
    repeat split; intros K; specialize (H _ K); discriminate.
  - intros H [c w] Hin. cbn. rewrite forallb_forall. intros s Hs.
    destruct (H _ _ Hin) as (A & B & C). destruct s; try reflexivity; contradiction.
Qed.

(** "Tame" does not mean scalar: the quadrupole operator is tame and has
    angular momentum 2. *)
Theorem C27_tame_is_scalar_refuted :
  ~ (forall WOp, Op_Tame WOp = true -> forall c w, In (c, w) WOp -> word_AM w = 0).
Proof.
  intros H. specialize (H quad_op eq_refl _ _ (or_introl eq_refl)). discriminate.
Qed.

(** The converse holds. *)
Theorem C27_scalar_is_tame : forall WOp,
  (forall c w, In (c, w) WOp -> word_AM w = 0) -> Op_Tame WOp = true.
Proof.
  intros WOp H. apply C27_tame. intros c w Hin. specialize (H _ _ Hin).
  assert (K : forall s, In s w -> sym_AM s = 0).
  { clear Hin. revert H. unfold word_AM. induction w as [|s w IH]; intros H t [].
    - subst t. cbn in H. pose proof (sym_AM_nonneg s). pose proof (word_AM_nonneg w) as P.
      unfold word_AM, zsum in P. lia.
    - apply IH; [|assumption]. cbn in H. pose proof (sym_AM_nonneg s). pose proof (word_AM_nonneg w) as P.
      unfold word_AM, zsum in P |- *. lia. }
  repeat split; intros G; specialize (K _ G); discriminate.
Qed.

(** *** Parity *)
Lemma in_parity_set_spec s : s <> Xspace_PiqPi ->
  (if in_parity_set s then 1 else 0) mod 2 = sym_degree s mod 2.
Proof.
  intros N. destruct s as [r|h| | | | | | ]; try reflexivity; [now destruct r|now destruct h|congruence].
Qed.

Lemma term_parity_spec w : ~ In Xspace_PiqPi w -> term_parity w mod 2 = word_degree w mod 2.
Proof.
  intros N.
  assert (G : forall l x, term_parity l = term_parity l -> ~ In Xspace_PiqPi l ->
     fold_left (fun p t => if in_parity_set t then p + 1 else p) l x mod 2 = (x + word_degree l) mod 2).
  { clear. induction l as [|s l IH]; intros x _ N; cbn [fold_left].
    - unfold word_degree. cbn. f_equal. lia.
    - rewrite IH by (try reflexivity; intros K; apply N; now right).
      pose proof (in_parity_set_spec s ltac:(intros ->; apply N; now left)) as E.
      unfold word_degree. cbn [map zsum fold_right]. fold (zsum (map sym_degree l)).
      unfold zsum. destruct (in_parity_set s); lia. }
  unfold term_parity. rewrite G by (try reflexivity; assumption). now rewrite Z.add_0_l.
Qed.

Lemma parity_loop_spec l x : 0 <= x < 2 ->
  ((forall t, In t l -> term_parity (snd t) mod 2 = x) -> parity_loop x l = x) /\
  (~ (forall t, In t l -> term_parity (snd t) mod 2 = x) -> parity_loop x l = -1).
Proof.
  intros Hx. induction l as [|t l [A B]]; cbn [parity_loop].
  - split; [reflexivity|]. intros H. exfalso. apply H. intros t [].
  - destruct ((term_parity (snd t) - x) mod 2 =? 1) eqn:C.
    + split; [|reflexivity]. intros H. specialize (H t (or_introl eq_refl)). lia.
    + split.
      * intros H. apply A. intros u Hu. apply H. now right.
      * intros H. apply B. intros G. apply H. intros u [<-|Hu]; [lia|now apply G].
Qed.

(** Sums without PiqPi: the common parity of the degrees, or -1. *)
Theorem C27_parity : forall (WOp : OperatorSum),
  WOp <> [] -> (forall c w, In (c, w) WOp -> ~ In Xspace_PiqPi w) ->
  (forall p, (forall c w, In (c, w) WOp -> word_degree w mod 2 = p) -> Op_Parity WOp = p) /\
  ((exists c w c' w', In (c, w) WOp /\ In (c', w') WOp /\ word_degree w mod 2 <> word_degree w' mod 2)
     -> Op_Parity WOp = -1).
Proof.
  intros [|[d u] l] N H; [congruence|]. cbn [Op_Parity snd].
  assert (K : forall t, In t ((d, u) :: l) -> term_parity (snd t) mod 2 = word_degree (snd t) mod 2).
  { intros [c w] Hin. apply term_parity_spec. now apply (H c). }
  pose proof (K _ (or_introl eq_refl)) as K0. cbn [snd] in K0. rewrite K0.
  destruct (parity_loop_spec l (word_degree u mod 2) ltac:(lia)) as [A B]. split.
  - intros p Hp. rewrite (Hp d u) in * by now left. apply A.
    intros [c w] Hin. rewrite K by now right. apply (Hp c). now right.
  - intros (c & w & c' & w' & H1 & H2 & Ne). apply B. intros G. apply Ne.
    assert (E : forall c w, In (c, w) ((d, u) :: l) -> word_degree w mod 2 = word_degree u mod 2).
    { intros x y [F|F]; [now injection F as _ <-|]. rewrite <- (G _ F). symmetry. apply (K (x, y)). now right. }
    rewrite (E _ _ H1), (E _ _ H2). reflexivity.
Qed.

(** [pi x q x pi], of degree 3, is classified as even. *)
Theorem C27_parity_PiqPi_refuted :
  ~ (forall c w p, word_degree w mod 2 = p -> Op_Parity [(c, w)] = p).
Proof. intros H. specialize (H (CNum 1) [Xspace_PiqPi] 1 eq_refl). discriminate. Qed.

Example C27_case : Op_AM [(CNum 1, [OSph SpHarm_112]); (CNum 2, [OSph SpHarm_51A; Xspace_Pi])] = -12
  /\ Op_Parity quad_op = 0 /\ Op_Parity [(CNum 1, [ORad Radial_b]); (CNum 2, [])] = -1
  /\ Op_AM quad_op = 2.
Proof. repeat split. Qed.

(** ** C28 *)
Lemma is0_cval c nu v a L : is0 c = true -> cval c nu v a L = 0%R.
Proof. destruct c; cbn; [|discriminate]. destruct (Req_EM_T r 0); [auto|discriminate]. Qed.

Lemma cval_cmul c d nu v a L : cval (cmul c d) nu v a L = (cval c nu v a L * cval d nu v a L)%R.
Proof.
  assert (G : cval (if is0 c || is0 d then CNum 0
            else CSym (fun nu v a L => (cval c nu v a L * cval d nu v a L)%R)) nu v a L
            = (cval c nu v a L * cval d nu v a L)%R).
  { destruct (is0 c) eqn:E; [cbn [orb cval]; rewrite (is0_cval c) by assumption; ring|].
    destruct (is0 d) eqn:F; [cbn [orb cval]; rewrite (is0_cval d) by assumption; ring|].
    reflexivity. }
  destruct c, d; try exact G. reflexivity.
Qed.

Lemma cval_cadd c d nu v a L : cval (cadd c d) nu v a L = (cval c nu v a L + cval d nu v a L)%R.
Proof.
  assert (G : cval (if is0 c then d else if is0 d then c
            else CSym (fun nu v a L => (cval c nu v a L + cval d nu v a L)%R)) nu v a L
            = (cval c nu v a L + cval d nu v a L)%R).
  { destruct (is0 c) eqn:E; [rewrite (is0_cval c) by assumption; ring|].
    destruct (is0 d) eqn:F; [rewrite (is0_cval d) by assumption; ring|].
    reflexivity. }
  destruct c, d; try exact G. reflexivity.
Qed.

Lemma cval_cscale r c nu v a L : cval (cscale r c) nu v a L = (r * cval c nu v a L)%R.
Proof. unfold cscale. now rewrite cval_cmul. Qed.

Lemma is0_cscale r c : r <> 0%R -> is0 c = false -> is0 (cscale r c) = false.
Proof.
  intros Hr Hc. unfold cscale, cmul. destruct c as [s|f].
  - cbn in *. destruct (Req_EM_T s 0); [discriminate|]. destruct (Req_EM_T (r * s) 0) as [E|]; [|reflexivity].
    apply Rmult_integral in E. tauto.
  - cbn. destruct (Req_EM_T r 0); [contradiction|]. reflexivity.
Qed.

Section Encoders.
  Variable A : ralg.
  Variable I : osym -> A.

  Lemma denote_app p q nu v a L :
    denote A I (p ++ q) nu v a L = aadd A (denote A I p nu v a L) (denote A I q nu v a L).
  Proof.
    induction p as [|[c w] p IH]; cbn [denote app]; [now rewrite aadd_0_l|].
    now rewrite IH, aadd_assoc.
  Qed.

  Lemma denote_opt c w nu v a L :
    denote A I (opt_term c (c, w)) nu v a L = ascal A (cval c nu v a L) (word A I w).
  Proof.
    unfold opt_term. destruct (is0 c) eqn:E; cbn [denote].
    - rewrite (is0_cval c) by assumption. now rewrite ascal_0.
    - now rewrite aadd_0_r.
  Qed.

  Lemma denote_opt_s r c w nu v a L :
    denote A I (opt_term c (cscale r c, w)) nu v a L = ascal A (cval c nu v a L) (ascal A r (word A I w)).
  Proof.
    unfold opt_term. destruct (is0 c) eqn:E; cbn [denote].
    - rewrite (is0_cval c) by assumption. now rewrite ascal_0.
    - rewrite aadd_0_r, cval_cscale, ascal_mul. f_equal. ring.
  Qed.

  Lemma apow_scal r x n : apow A (ascal A r x) n = ascal A (r ^ n) (apow A x n).
  Proof.
    induction n as [|n IH]; cbn [apow pow]; [now rewrite ascal_1|].
    now rewrite IH, ascal_amul_l, ascal_amul_r, ascal_mul.
  Qed.

  Lemma word_app p q : word A I (p ++ q) = amul A (word A I p) (word A I q).
  Proof.
    induction p as [|s p IH]; cbn [word app]; [now rewrite amul_1_l|]. now rewrite IH, amul_assoc.
  Qed.

  Lemma word_repeat s n : word A I (repeat s n) = apow A (I s) n.
  Proof. induction n as [|n IH]; cbn [word repeat apow]; [reflexivity|]. now rewrite IH. Qed.

  Lemma apow_1 x : apow A x 1 = x.
  Proof. cbn. apply amul_1_r. Qed.

  Lemma apow_2 x : apow A x 2 = amul A x x.
  Proof. cbn. now rewrite amul_1_r. Qed.
End Encoders.

(** internal_operators.py:593-599, Table III: in every real algebra in which
    beta^2 and beta^-2 are the squares of beta and beta^-1, the operator is
      c11 Lap + c20 + c21 b^2 + c22 b^4 + c23 b^-2
      + (c30 b + c31 b^3 + c32 b^5 + c33 b^-1) cos3g
      + (c40 + c41 b^2 + c42 b^4 + c43 b^-2) cos3g^2 + c50 [pi q pi]
    where Lap = d^2/db^2 - (2 + v(v+3)) b^-2 on states of seniority v and
    cos3g = (4 pi/3) Y310; the coefficients may depend on the state. *)
Theorem C28_Hamiltonian : forall (A : ralg) (I : osym -> A)
    (c11 c20 c21 c22 c23 c30 c31 c32 c33 c40 c41 c42 c43 c50 : coef) (nu v a L : Z),
  let b := I (ORad Radial_b) in
  let bm := I (ORad Radial_bm) in
  let Lap := aadd A (I (ORad Radial_D2b))
               (ascal A (- (2 + IZR v * (IZR v + 3))) (apow A bm 2)) in
  let cos3g := ascal A (4 * PI / 3) (I (OSph SpHarm_310)) in
  let c x y := ascal A (cval x nu v a L) y in
  I (ORad Radial_b2) = apow A b 2 -> I (ORad Radial_bm2) = apow A bm 2 ->
  denote A I (ACM_Hamiltonian c11 c20 c21 c22 c23 c30 c31 c32 c33 c40 c41 c42 c43 c50) nu v a L
  = asum A [c c11 Lap; c c20 (a1 A); c c21 (apow A b 2); c c22 (apow A b 4); c c23 (apow A bm 2);
            c c30 (amul A b cos3g); c c31 (amul A (apow A b 3) cos3g);
            c c32 (amul A (apow A b 5) cos3g); c c33 (amul A bm cos3g);
            c c40 (apow A cos3g 2); c c41 (amul A (apow A b 2) (apow A cos3g 2));
            c c42 (amul A (apow A b 4) (apow A cos3g 2)); c c43 (amul A (apow A bm 2) (apow A cos3g 2));
            c c50 (I Xspace_PiqPi)].
Proof.
  intros A I c11 c20 c21 c22 c23 c30 c31 c32 c33 c40 c41 c42 c43 c50 nu v a L b bm Lap cos3g c Hb Hbm.
  unfold ACM_Hamiltonian. rewrite !denote_app.
  match goal with |- aadd A ?x _ = _ => assert (E11 : x = c c11 Lap) end.
  { unfold c. destruct (is0 c11) eqn:E.
    - rewrite (is0_cval c11) by assumption. now rewrite ascal_0.
    - cbn [denote word]. rewrite !amul_1_r, aadd_0_r, cval_cmul, cval_cscale.
      cbn [cval SEN]. unfold Lap. rewrite ascal_aadd, ascal_mul, Hbm. f_equal. f_equal. ring. }
  rewrite E11, !denote_opt, !denote_opt_s. cbn [asum]. rewrite aadd_0_r.
  unfold c. cbn [word]. rewrite !amul_1_r, Hb, Hbm.
  fold b bm. unfold cos3g. rewrite !apow_2, !ascal_amul_l, !ascal_amul_r, !ascal_mul.
  change Convert_310 with (4 * PI / 3)%R.
  unfold apow. rewrite !amul_1_r.
  rewrite <- !amul_assoc.
  replace ((4 * PI / 3) ^ 2)%R with (4 * PI / 3 * (4 * PI / 3))%R by ring.
  rewrite <- !Rmult_assoc. reflexivity.
Qed.

(** Polynomials in one element. *)
Section Poly.
  Variable A : ralg.
  Variable I : osym -> A.
  Variable x : A.

  Fixpoint peval (p : list R) : A :=
    match p with [] => a0 A | r :: q => aadd A (ascal A r (a1 A)) (amul A x (peval q)) end.

  Fixpoint padd (p q : list R) : list R :=
    match p, q with
    | [], _ => q
    | _, [] => p
    | r :: p', s :: q' => (r + s)%R :: padd p' q'
    end.

  Definition pscal (r : R) (p : list R) : list R := map (Rmult r) p.

  Lemma amul_0_r y : amul A y (a0 A) = a0 A.
  Proof. rewrite <- (ascal_0 A (a1 A)), ascal_amul_r. now rewrite !ascal_0. Qed.

  Lemma ascal_a0 r : ascal A r (a0 A) = a0 A.
  Proof. rewrite <- (ascal_0 A (a1 A)), ascal_mul. f_equal. ring. Qed.

  Lemma aadd_swap a b c d : aadd A (aadd A a b) (aadd A c d) = aadd A (aadd A a c) (aadd A b d).
  Proof.
    rewrite <- !aadd_assoc. f_equal. rewrite !aadd_assoc. f_equal. apply aadd_comm.
  Qed.

  Lemma peval_add p q : peval (padd p q) = aadd A (peval p) (peval q).
  Proof.
    revert q. induction p as [|r p IH]; intros q; cbn [padd peval]; [now rewrite aadd_0_l|].
    destruct q as [|s q]; cbn [peval]; [now rewrite aadd_0_r|].
    now rewrite IH, amul_aadd_l, ascal_add, aadd_swap.
  Qed.

  Lemma peval_scal r p : peval (pscal r p) = ascal A r (peval p).
  Proof.
    induction p as [|s p IH]; cbn [pscal map peval]; [now rewrite ascal_a0|].
    fold (pscal r p). now rewrite IH, ascal_aadd, ascal_mul, ascal_amul_r.
  Qed.

  Lemma peval_x p : amul A x (peval p) = peval (0%R :: p).
  Proof. cbn [peval]. now rewrite ascal_0, aadd_0_l. Qed.

  Lemma peval_1 : a1 A = peval [1%R].
  Proof. cbn [peval]. now rewrite ascal_1, amul_0_r, aadd_0_r. Qed.

  Lemma peval_quad y p : y = aadd A (ascal A 3 (apow A x 2)) (ascal A (-1) (a1 A)) ->
    amul A y (peval p) = peval (padd (pscal 3 (0%R :: 0%R :: p)) (pscal (-1) p)).
  Proof.
    intros ->. rewrite amul_aadd_r, !ascal_amul_l, amul_1_l, apow_2, <- amul_assoc.
    rewrite !peval_x, <- !peval_scal. now rewrite peval_add.
  Qed.

  Lemma peval_sum l :
    asum A (map (fun nc : nat * R => ascal A (snd nc) (apow A x (fst nc))) (combine (seq 0 (length l)) l))
    = peval l.
  Proof.
    enough (G : forall k, asum A (map (fun nc : nat * R => ascal A (snd nc) (apow A x (fst nc)))
                (combine (seq k (length l)) l)) = amul A (apow A x k) (peval l)).
    { rewrite G. cbn [apow]. now rewrite amul_1_l. }
    induction l as [|r l IH]; intros k; cbn [length seq combine map asum peval]; [now rewrite amul_0_r|].
    rewrite IH. cbn [fst snd]. rewrite amul_aadd_l, ascal_amul_r, amul_1_r. f_equal.
    rewrite amul_assoc. f_equal. clear. induction k as [|k IH]; cbn [apow].
    - now rewrite amul_1_r, amul_1_l.
    - change (amul A x (apow A x k)) with (apow A x (S k)) at 1. rewrite IH at 1.
      now rewrite amul_assoc.
  Qed.
End Poly.

(** ACM_HamSH3 and ACM_HamSH6 both denote c0 + c1 cos3g + ... + c8 cos3g^8, the
    first in every algebra, the second in every algebra where the harmonic
    Y610 is (8 pi/sqrt 15) Y610 = 3 cos3g^2 - 1. *)
Theorem C28_HamSH3 : forall (A : ralg) (I : osym -> A)
    (c0 c1 c2 c3 c4 c5 c6 c7 c8 : coef) (nu v a L : Z),
  let cos3g := ascal A (4 * PI / 3) (I (OSph SpHarm_310)) in
  denote A I (ACM_HamSH3 c0 c1 c2 c3 c4 c5 c6 c7 c8) nu v a L
  = asum A (map (fun nc : nat * coef => ascal A (cval (snd nc) nu v a L) (apow A cos3g (fst nc)))
      [(0%nat, c0); (1%nat, c1); (2%nat, c2); (3%nat, c3); (4%nat, c4); (5%nat, c5); (6%nat, c6);
       (7%nat, c7); (8%nat, c8)]).
Proof.
  intros A I c0 c1 c2 c3 c4 c5 c6 c7 c8 nu v a L cos3g. unfold ACM_HamSH3.
  cbn [seq combine flat_map map asum fst snd].
  rewrite !denote_app, denote_opt, !denote_opt_s, !word_repeat.
  unfold cos3g. rewrite !apow_scal. change Convert_310 with (4 * PI / 3)%R.
  change (apow A (I (OSph SpHarm_310)) 0) with (a1 A). cbn [word denote].
  replace ((4 * PI / 3) ^ 0)%R with 1%R by ring. now rewrite ascal_1.
Qed.

Theorem C28_HamSH6 : forall (A : ralg) (I : osym -> A)
    (c0 c1 c2 c3 c4 c5 c6 c7 c8 : coef) (nu v a L : Z),
  let cos3g := ascal A (4 * PI / 3) (I (OSph SpHarm_310)) in
  ascal A (8 * PI / sqrt 15) (I (OSph SpHarm_610))
    = aadd A (ascal A 3 (apow A cos3g 2)) (ascal A (-1) (a1 A)) ->
  denote A I (ACM_HamSH6 c0 c1 c2 c3 c4 c5 c6 c7 c8) nu v a L
  = asum A (map (fun nc : nat * coef => ascal A (cval (snd nc) nu v a L) (apow A cos3g (fst nc)))
      [(0%nat, c0); (1%nat, c1); (2%nat, c2); (3%nat, c3); (4%nat, c4); (5%nat, c5); (6%nat, c6);
       (7%nat, c7); (8%nat, c8)]).
Proof.
  intros A I c0 c1 c2 c3 c4 c5 c6 c7 c8 nu v a L cos3g HX. unfold ACM_HamSH6.
  rewrite !denote_app, denote_opt, !denote_opt_s. unfold cscale.
  cbn [map fst snd].
  set (X := ascal A (8 * PI / sqrt 15) (I (OSph SpHarm_610))) in *.
  assert (E6 : Convert_610 = (8 * PI / sqrt 15)%R).
  { unfold Convert_610, FourPi. f_equal. ring. }
  assert (E3 : Convert_310 = (4 * PI / 3)%R) by reflexivity.
  rewrite !E6, !E3.
  set (r6 := (8 * PI / sqrt 15)%R) in *. set (r3 := (4 * PI / 3)%R) in *.
  assert (M6 : forall r y, ascal A (r6 * r) (amul A (I (OSph SpHarm_610)) y) = amul A X (ascal A r y)).
  { intros. unfold X. rewrite ascal_amul_l, ascal_amul_r, ascal_mul. reflexivity. }
  assert (M3 : forall r y, ascal A (r3 * r) (amul A (I (OSph SpHarm_310)) y) = amul A cos3g (ascal A r y)).
  { intros. unfold cos3g. rewrite ascal_amul_l, ascal_amul_r, ascal_mul. reflexivity. }
  cbn [word].
  assert (P : forall k w, ascal A (r6 * k) (amul A (I (OSph SpHarm_610)) w) = amul A X (ascal A k w)) by exact M6.
  replace (r6 * r3)%R with (r6 * (r3 * 1))%R by ring.
  replace (r6 ^ 2 * r3)%R with (r6 * (r6 * (r3 * 1)))%R by ring.
  replace (r6 ^ 3 * r3)%R with (r6 * (r6 * (r6 * (r3 * 1))))%R by ring.
  replace (r6 ^ 2)%R with (r6 * (r6 * 1))%R by ring.
  replace (r6 ^ 3)%R with (r6 * (r6 * (r6 * 1)))%R by ring.
  replace (r6 ^ 4)%R with (r6 * (r6 * (r6 * (r6 * 1))))%R by ring.
  pose proof (M6 1%R (a1 A)) as Q6. rewrite Rmult_1_r in Q6. rewrite Q6.
  pose proof (M3 1%R (a1 A)) as Q3. rewrite Rmult_1_r in Q3. rewrite Q3.
  rewrite !M6, !M3, !ascal_1.
  rewrite !(peval_1 A cos3g).
  repeat (rewrite ?peval_x; rewrite ?(peval_quad A cos3g X) by exact HX).
  rewrite <- !peval_scal, <- !peval_add.
  pose proof (peval_sum A cos3g (map (fun c => cval c nu v a L) [c0; c1; c2; c3; c4; c5; c6; c7; c8])) as S.
  cbn [length map seq combine fst snd] in S. rewrite S. f_equal.
  rewrite !cval_cadd, !cval_cmul. cbn [cval pscal map padd].
  repeat apply f_equal2; try reflexivity; field.
Qed.

(** RigidBeta: cas v(v+3) + con + c1 cos3g + ... + c6 cos3g^6 with either flag;
    any other flag is refused. *)
Theorem C28_RigidBeta : forall (A : ralg) (I : osym -> A)
    (cas con c1 c2 c3 c4 c5 c6 : coef) (flag nu v a L : Z),
  let cos3g := ascal A (4 * PI / 3) (I (OSph SpHarm_310)) in
  ascal A (8 * PI / sqrt 15) (I (OSph SpHarm_610))
    = aadd A (ascal A 3 (apow A cos3g 2)) (ascal A (-1) (a1 A)) ->
  (flag = 0 \/ flag = 1 ->
   exists H, ACM_HamRigidBeta cas con c1 c2 c3 c4 c5 c6 flag = Ok H /\
   denote A I H nu v a L
   = asum A ( ascal A (cval cas nu v a L * (IZR v * (IZR v + 3))) (a1 A)
      :: map (fun nc : nat * coef => ascal A (cval (snd nc) nu v a L) (apow A cos3g (fst nc)))
      [(0%nat, con); (1%nat, c1); (2%nat, c2); (3%nat, c3); (4%nat, c4); (5%nat, c5); (6%nat, c6)])) /\
  (flag <> 0 -> flag <> 1 ->
   ACM_HamRigidBeta cas con c1 c2 c3 c4 c5 c6 flag = Raise ValueError).
Proof.
  intros A I cas con c1 c2 c3 c4 c5 c6 flag nu v a L cos3g HX. split.
  - intros Hf. unfold ACM_HamRigidBeta.
    replace (negb ((flag =? 0) || (flag =? 1))) with false by (destruct Hf; subst; reflexivity).
    cbn [raise_if bind].
    set (W := if flag =? 0 then ACM_HamSH3 con c1 c2 c3 c4 c5 c6 (CNum 0) (CNum 0)
              else ACM_HamSH6 con c1 c2 c3 c4 c5 c6 (CNum 0) (CNum 0)).
    assert (E : denote A I W nu v a L = asum A (map (fun nc : nat * coef => ascal A (cval (snd nc) nu v a L) (apow A cos3g (fst nc)))
      [(0%nat, con); (1%nat, c1); (2%nat, c2); (3%nat, c3); (4%nat, c4); (5%nat, c5); (6%nat, c6)])).
    { unfold W. destruct Hf as [-> | ->]; cbn [Z.eqb].
      - rewrite C28_HamSH3. cbn [map asum fst snd]. fold cos3g. cbn [cval]. now rewrite !ascal_0, !aadd_0_r.
      - rewrite C28_HamSH6 by exact HX. cbn [map asum fst snd]. fold cos3g. cbn [cval].
        now rewrite !ascal_0, !aadd_0_r. }
    destruct (is0 cas) eqn:Z0.
    + exists W. split; [reflexivity|]. rewrite E. cbn [asum].
      rewrite (is0_cval cas) by assumption. now rewrite Rmult_0_l, ascal_0, aadd_0_l.
    + eexists. split; [reflexivity|]. cbn [denote word]. rewrite E, cval_cmul. reflexivity.
  - intros H0 H1. unfold ACM_HamRigidBeta.
    replace (negb ((flag =? 0) || (flag =? 1))) with true by lia. reflexivity.
Qed.

(** RWC: - Lap/(2B) + (B/2)(c1 b^2 + c2 b^4) - chi b cos3g + kappa cos3g^2. *)
Theorem C28_RWC : forall (A : ralg) (I : osym -> A) (B c1 c2 chi kappa : R) (nu v a L : Z),
  let b := I (ORad Radial_b) in
  let bm := I (ORad Radial_bm) in
  let Lap := aadd A (I (ORad Radial_D2b))
               (ascal A (- (2 + IZR v * (IZR v + 3))) (apow A bm 2)) in
  let cos3g := ascal A (4 * PI / 3) (I (OSph SpHarm_310)) in
  I (ORad Radial_b2) = apow A b 2 -> I (ORad Radial_bm2) = apow A bm 2 -> B <> 0%R ->
  denote A I (RWC_Ham B c1 c2 chi kappa) nu v a L
  = asum A [ascal A (- / (2 * B)) Lap; ascal A (B * c1 / 2) (apow A b 2); ascal A (B * c2 / 2) (apow A b 4);
            ascal A (- chi) (amul A b cos3g); ascal A kappa (apow A cos3g 2)].
Proof.
  intros A I B c1 c2 chi kappa nu v a L b bm Lap cos3g Hb Hbm HB. unfold RWC_Ham.
  rewrite C28_Hamiltonian by assumption. fold b bm cos3g Lap. cbn [asum cval].
  rewrite !ascal_0, !aadd_0_l, !aadd_0_r. do 2 f_equal. field. assumption.
Qed.

(** No term has coefficient zero. *)
Definition nonzero_terms (W : OperatorSum) : Prop := forall c w, In (c, w) W -> is0 c = false.

Lemma nonzero_app p q : nonzero_terms p -> nonzero_terms q -> nonzero_terms (p ++ q).
Proof. intros H K c w Hin. apply in_app_iff in Hin. destruct Hin; [eapply H|eapply K]; eassumption. Qed.

Lemma nonzero_opt c w : nonzero_terms (opt_term c (c, w)).
Proof.
  unfold opt_term. intros d u Hin. destruct (is0 c) eqn:E; [destruct Hin|].
  destruct Hin as [F|[]]. now injection F as <- <-.
Qed.

Lemma nonzero_opt_s r c w : r <> 0%R -> nonzero_terms (opt_term c (cscale r c, w)).
Proof.
  intros Hr. unfold opt_term. intros d u Hin. destruct (is0 c) eqn:E; [destruct Hin|].
  destruct Hin as [F|[]]. injection F as <- <-. now apply is0_cscale.
Qed.

Lemma Convert_310_nz : Convert_310 <> 0%R.
Proof. unfold Convert_310, FourPi. pose proof PI_RGT_0. lra. Qed.

Lemma Convert_610_nz : Convert_610 <> 0%R.
Proof.
  unfold Convert_610, FourPi. pose proof PI_RGT_0.
  assert (0 < sqrt 15)%R by (apply sqrt_lt_R0; lra).
  apply Rgt_not_eq. apply Rdiv_lt_0_compat; lra.
Qed.

Ltac nz := repeat (exact Convert_310_nz || exact Convert_610_nz || apply pow_nonzero
                   || apply Rmult_integral_contrapositive_currified).

Theorem C28_zero_terms_omitted : forall c11 c20 c21 c22 c23 c30 c31 c32 c33 c40 c41 c42 c43 c50
    cas con c1 c2 c3 c4 c5 c6 flag W,
  nonzero_terms (ACM_Hamiltonian c11 c20 c21 c22 c23 c30 c31 c32 c33 c40 c41 c42 c43 c50) /\
  (ACM_HamRigidBeta cas con c1 c2 c3 c4 c5 c6 flag = Ok W -> nonzero_terms W).
Proof.
  intros. split.
  - unfold ACM_Hamiltonian.
    repeat (apply nonzero_app; [first [apply nonzero_opt | apply nonzero_opt_s; nz | idtac]|]);
      [|apply nonzero_opt].
    intros c w Hin. destruct (is0 c11) eqn:E; [destruct Hin|].
    destruct Hin as [F|[F|[]]]; injection F as <- <-; [exact E|].
    unfold cmul. pose proof (is0_cscale (-1) c11 ltac:(lra) E) as K.
    destruct (cscale (-1) c11); rewrite K; reflexivity.
  - unfold ACM_HamRigidBeta. destruct (negb ((flag =? 0) || (flag =? 1))); [discriminate|].
    cbn [raise_if bind]. intros HW.
    assert (G : nonzero_terms (if flag =? 0 then ACM_HamSH3 con c1 c2 c3 c4 c5 c6 (CNum 0) (CNum 0)
              else ACM_HamSH6 con c1 c2 c3 c4 c5 c6 (CNum 0) (CNum 0))).
    { destruct (flag =? 0).
      - unfold ACM_HamSH3. cbn [seq combine flat_map].
        repeat (apply nonzero_app; [first [apply nonzero_opt | apply nonzero_opt_s; nz]|]).
        intros c w [].
      - unfold ACM_HamSH6.
        repeat (apply nonzero_app; [first [apply nonzero_opt | apply nonzero_opt_s; nz]|]).
        apply nonzero_opt_s; nz. }
    destruct (is0 cas) eqn:E; injection HW as <-; [exact G|].
    intros c w [F|Hin]; [|eapply G; eassumption]. injection F as <- <-.
    unfold cmul, SEN. destruct cas; rewrite E; reflexivity.
Qed.

(** What the encoders produce is tame and scalar. *)
Definition scalar_terms (W : OperatorSum) : Prop := forall c w, In (c, w) W -> word_AM w = 0.

Lemma scalar_app p q : scalar_terms p -> scalar_terms q -> scalar_terms (p ++ q).
Proof. intros H K c w Hin. apply in_app_iff in Hin. destruct Hin; [eapply H|eapply K]; eassumption. Qed.

Lemma scalar_opt c d w : word_AM w = 0 -> scalar_terms (opt_term c (d, w)).
Proof.
  unfold opt_term. intros H e u Hin. destruct (is0 c) eqn:E; [destruct Hin|].
  destruct Hin as [F|[]]. now injection F as <- <-.
Qed.

Theorem C28_encoders_are_scalar : forall c11 c20 c21 c22 c23 c30 c31 c32 c33 c40 c41 c42 c43 c50
    cas con c1 c2 c3 c4 c5 c6 flag W,
  W = ACM_Hamiltonian c11 c20 c21 c22 c23 c30 c31 c32 c33 c40 c41 c42 c43 c50 \/
  ACM_HamRigidBeta cas con c1 c2 c3 c4 c5 c6 flag = Ok W ->
  Op_AM W = 0 /\ Op_Tame W = true.
Proof.
  intros c11 c20 c21 c22 c23 c30 c31 c32 c33 c40 c41 c42 c43 c50 cas con c1 c2 c3 c4 c5 c6 flag W H.
  assert (S : scalar_terms W).
  { destruct H as [->|H].
    - unfold ACM_Hamiltonian.
      repeat (apply scalar_app; [first [apply scalar_opt; reflexivity | idtac]|]);
        [|apply scalar_opt; reflexivity].
      intros c w Hin. destruct (is0 c11); [destruct Hin|].
      destruct Hin as [F|[F|[]]]; injection F as <- <-; reflexivity.
    - revert H. unfold ACM_HamRigidBeta. destruct (negb ((flag =? 0) || (flag =? 1))); [discriminate|].
      cbn [raise_if bind]. intros HW.
      assert (G : scalar_terms (if flag =? 0 then ACM_HamSH3 con c1 c2 c3 c4 c5 c6 (CNum 0) (CNum 0)
                else ACM_HamSH6 con c1 c2 c3 c4 c5 c6 (CNum 0) (CNum 0))).
      { destruct (flag =? 0).
        - unfold ACM_HamSH3. cbn [seq combine flat_map].
          repeat (apply scalar_app; [apply scalar_opt; reflexivity|]). intros c w [].
        - unfold ACM_HamSH6.
          repeat (apply scalar_app; [apply scalar_opt; reflexivity|]). apply scalar_opt; reflexivity. }
      destruct (is0 cas) eqn:E; injection HW as <-; [exact G|].
      intros c w [F|Hin]; [|eapply G; eassumption]. injection F as <- <-. reflexivity. }
  split; [|apply C27_scalar_is_tame; exact S].
  destruct W as [|t W]; [reflexivity|]. apply C27_AM_definite; [discriminate|exact S].
Qed.

(** The hypotheses on algebra and interpretation are met: numbers, at beta = 2
    and cos3g = 1/2. *)
Definition I_num (s : osym) : Ralg :=
  match s with
  | ORad Radial_b => 2%R | ORad Radial_bm => (/ 2)%R
  | ORad Radial_b2 => 4%R | ORad Radial_bm2 => (/ 4)%R
  | OSph SpHarm_310 => (3 / (8 * PI))%R
  | OSph SpHarm_610 => (- sqrt 15 / (32 * PI))%R
  | _ => 0%R
  end.

Example C28_case :
  I_num (ORad Radial_b2) = apow Ralg (I_num (ORad Radial_b)) 2 /\
  I_num (ORad Radial_bm2) = apow Ralg (I_num (ORad Radial_bm)) 2 /\
  let cos3g := ascal Ralg (4 * PI / 3) (I_num (OSph SpHarm_310)) in
  cos3g = (1 / 2)%R /\
  ascal Ralg (8 * PI / sqrt 15) (I_num (OSph SpHarm_610))
    = aadd Ralg (ascal Ralg 3 (apow Ralg cos3g 2)) (ascal Ralg (-1) (a1 Ralg)).
Proof.
  pose proof PI_RGT_0. assert (0 < sqrt 15)%R by (apply sqrt_lt_R0; lra).
  assert (E : ascal Ralg (4 * PI / 3) (I_num (OSph SpHarm_310)) = (1 / 2)%R).
  { cbn. field. lra. }
  split; [cbn; lra|]. split; [cbn; lra|]. split; [exact E|].
  rewrite E. cbn. field. lra.
Qed.

Print Assumptions C27_AM_definite.
Print Assumptions C27_AM_indefinite.
Print Assumptions C27_AM_empty.
Print Assumptions C27_tame.
Print Assumptions C27_tame_is_scalar_refuted.
Print Assumptions C27_scalar_is_tame.
Print Assumptions C27_parity.
Print Assumptions C27_parity_PiqPi_refuted.
Print Assumptions C28_Hamiltonian.
Print Assumptions C28_HamSH3.
Print Assumptions C28_HamSH6.
Print Assumptions C28_RigidBeta.
Print Assumptions C28_RWC.
Print Assumptions C28_zero_terms_omitted.
Print Assumptions C28_encoders_are_scalar.
