(** The blocks assembled by RepXspace_Twin, RepXspace_Pi, RepXspace_PiPi and
    RepXspace_PiqPi. *)

From Coq Require Import Reals Lra.
From Coq Require Import Lia ZifyBool ZifyNat.
From Verif Require Import PyBase PyFacts Compat SphericalSpec Spherical SphericalFacts PropsSpherical Matrix RadialME
  RadialMEFacts FullLabels RadialOps Operators FullOps PropsHarmonics FullOpsFacts.
Open Scope Z_scope.
Ltac Zify.zify_post_hook ::= Z.div_mod_to_equations.

(** Valid ranges. *)
Definition valid (a : xargs) : Prop :=
  0 <= xa_nu_min a <= xa_nu_max a /\ 0 <= xa_v_min a <= xa_v_max a /\ 0 <= xa_L_min a <= xa_L_max a.

(** The spherical labels and the radial dimension. *)
Definition slabels (a : xargs) : list label := lbs (xa_v_min a) (xa_v_max a) (xa_L_min a) (xa_L_max a).
Definition rdim (a : xargs) : Z := xa_nu_max a - xa_nu_min a + 1.

Lemma xa_check_cases a : (valid a /\ xa_check a = Ok tt) \/ (~ valid a /\ xa_check a = Raise ValueError).
Proof.
  unfold valid, xa_check.
  destruct (range_cases (xa_nu_min a) (xa_nu_max a)) as [[A ->]|[A ->]]; cbn [bind]; [|right; split; [lia|reflexivity]].
  destruct (range_cases (xa_v_min a) (xa_v_max a)) as [[B ->]|[B ->]]; cbn [bind]; [|right; split; [lia|reflexivity]].
  destruct (range_cases (xa_L_min a) (xa_L_max a)) as [[C ->]|[C ->]]; cbn [bind]; [left|right]; split; try lia; auto.
Qed.

Lemma xa_check_ok a : valid a -> xa_check a = Ok tt.
Proof. intros H. destruct (xa_check_cases a) as [[_ E]|[N _]]; [exact E|contradiction]. Qed.

Lemma xa_labels a : valid a ->
  lbsSO5r3_rngVvarL (xa_v_min a) (xa_v_max a) (xa_L_min a) (Some (xa_L_max a)) = Ok (slabels a).
Proof. intros (_ & A & B). now apply lbs_rngVvarL_some. Qed.

Lemma xa_dim a : valid a ->
  dimSO5r3_rngVvarL (xa_v_min a) (xa_v_max a) (xa_L_min a) (Some (xa_L_max a)) = Ok (zlen (slabels a)).
Proof.
  intros (_ & A & B). destruct (C04_rngVvarL _ _ _ _ A B) as (l & E & _ & D).
  rewrite lbs_rngVvarL_some in E by assumption. injection E as <-. exact D.
Qed.

Lemma xa_rdim a : valid a -> dimRadial (xa_nu_min a) (xa_nu_max a) = rdim a /\ 0 < rdim a.
Proof. intros (A & _). unfold dimRadial, rdim. replace (xa_nu_min a <=? xa_nu_max a) with true by lia. split; lia. Qed.

Lemma bind_assoc {A B C} (m : res A) (f : A -> res B) (g : B -> res C) :
  (let* y := (let* x := m in f x) in g y) = (let* x := m in let* y := f x in g y).
Proof. destruct m; reflexivity. Qed.

(** Blocks determined by the labels at two positions. *)
Definition at2 (l : list label) (f : label -> label -> res (option (mat R))) (j i : Z) : res (option (mat R)) :=
  let* s := label_at l j in
  let* t := label_at l i in
  f s t.

Lemma label_at_ok l i : 0 <= i < zlen l -> exists s, label_at l i = Ok s /\ nth_error l (Z.to_nat i) = Some s.
Proof.
  intros H. unfold label_at. destruct (nth_error l (Z.to_nat i)) as [s|] eqn:E; [eauto|].
  apply nth_error_None in E. unfold zlen in H. lia.
Qed.

Lemma at2_ok l f j i s t : nth_error l (Z.to_nat j) = Some s -> nth_error l (Z.to_nat i) = Some t ->
  at2 l f j i = f s t.
Proof. intros A B. unfold at2, label_at. now rewrite A, B. Qed.

Lemma py_range_nonempty n : 0 < n -> py_range 1 (n + 1) <> [].
Proof. intros H. rewrite py_range_cons by lia. discriminate. Qed.

(** Nested loops whose outer part first reads a label and a lambda value. *)
Lemma nested (lam : Z -> res Z) (l : list label) (g : label -> Z -> Z -> Z -> mat R -> res (mat R)) n D :
  0 <= n ->
  for_ (py_range 1 (n + 1)) (fun j2 D =>
    let* s := label_at l (j2 - 1) in
    let* li := lam (fst (fst s)) in
    for_ (py_range 1 (n + 1)) (fun i2 D => g s li (j2 - 1) (i2 - 1) D) D) D
  = for_ (pairs n) (fun p D =>
      let* s := label_at l (fst p) in
      let* li := lam (fst (fst s)) in
      g s li (fst p) (snd p) D) D.
Proof.
  intros Hn. destruct (Z.eq_dec n 0) as [->|Hp]; [reflexivity|].
  assert (NE : py_range 1 (n + 1) <> []) by (apply py_range_nonempty; lia).
  rewrite <- (for_pairs (fun j i D => let* s := label_at l j in let* li := lam (fst (fst s)) in g s li j i D)) by assumption.
  apply for_ext. intros j2 D' _.
  transitivity (let* s := label_at l (j2 - 1) in
    for_ (py_range 1 (n + 1)) (fun i2 D0 => let* li := lam (fst (fst s)) in g s li (j2 - 1) (i2 - 1) D0) D').
  - destruct (label_at l (j2 - 1)); cbn [bind]; [|reflexivity]. now apply for_pull.
  - now apply for_pull.
Qed.

Section Blocks.
  Variable RP : list rsym -> R -> R -> Z -> Z -> Z -> Z -> res (mat R).
  Variable CG : Z -> Z -> Z -> Z -> Z -> Z -> Z -> Z -> Z -> res R.
  Variable lam : Z -> res Z.
  Variable a : xargs.

  Let LC rlc lambdaa var lap :=
    RepRadial_LC RP rlc (xa_anorm a) lambdaa var (xa_nu_min a) (xa_nu_max a) lap.

  (** [c] is the spherical matrix element. *)
  Definition twin_block (rad_ops : list rsym) (c : R) (s t : label) : res (option (mat R)) :=
    let* li := lam (fst (fst s)) in
    let* lf := lam (fst (fst t)) in
    if Req_EM_T c 0 then Ok None
    else
      let* m := RP rad_ops (xa_anorm a) (xa_lambda_base a + IZR li) (lf - li) (xa_nu_min a) (xa_nu_max a) 0 in
      Ok (Some (mscale c m)).

  Definition pi_block (s t : label) : res (option (mat R)) :=
    let '(v_i, al_i, L_i) := s in
    let '(v_f, al_f, L_f) := t in
    let* li := lam v_i in
    if (2 <? L_f - L_i) || (L_f - L_i <? -2) then Ok None
    else
      let* lf := lam v_f in
      if v_f - v_i =? 1 then
        let* m := LC [(1%R, [Radial_Db]); (IZR (- v_i - 2), [Radial_bm])] (xa_lambda_base a + IZR li) (lf - li) 0 in
        let* q := Qred_p1 v_i in let* c := to_float q in
        let* g := CG v_i al_i L_i 1 1 2 v_f al_f L_f in Ok (Some (mscale g (mscale c m)))
      else if v_f - v_i =? -1 then
        let* m := LC [(1%R, [Radial_Db]); (IZR (v_i + 1), [Radial_bm])] (xa_lambda_base a + IZR li) (lf - li) 0 in
        let* q := Qred_m1 v_i in let* c := to_float q in
        let* g := CG v_i al_i L_i 1 1 2 v_f al_f L_f in Ok (Some (mscale g (mscale c m)))
      else Ok None.

  Definition pipi_block (PiPi_L : Z) (s t : label) : res (option (mat R)) :=
    let '(v_i, al_i, L_i) := s in
    let '(v_f, al_f, L_f) := t in
    let* li := lam v_i in
    if (PiPi_L <? L_f - L_i) || (L_f - L_i <? - PiPi_L) then Ok None
    else
      let* lf := lam v_f in
      let lambdaa := (xa_lambda_base a + IZR li)%R in
      if v_f - v_i =? 2 then
        let* m := LC [(1%R, [Radial_D2b]); (IZR ((v_i + 2) * (v_i + 4)), [Radial_bm2]);
                      (IZR (-2 * v_i - 5), [Radial_bm2; Radial_bDb])] lambdaa (lf - li) 0 in
        let* q := QxQred_p2 v_i in let* c := to_float q in
        let* g := CG v_i al_i L_i 2 1 PiPi_L v_f al_f L_f in Ok (Some (mscale g (mscale (- c) m)))
      else if v_f - v_i =? -2 then
        let* m := LC [(1%R, [Radial_D2b]); (IZR ((v_i - 1) * (v_i + 1)), [Radial_bm2]);
                      (IZR (2 * v_i + 1), [Radial_bm2; Radial_bDb])] lambdaa (lf - li) 0 in
        let* q := QxQred_m2 v_i in let* c := to_float q in
        let* g := CG v_i al_i L_i 2 1 PiPi_L v_f al_f L_f in Ok (Some (mscale g (mscale (- c) m)))
      else if v_f - v_i =? 0 then
        let* m := LC [(1%R, [Radial_D2b]); (IZR (- (v_i + 1) * (v_i + 2)), [Radial_bm2])] lambdaa (lf - li) 0 in
        let* q := QxQred_0 v_i in let* c := to_float q in
        let* g := CG v_i al_i L_i 2 1 PiPi_L v_f al_f L_f in Ok (Some (mscale g (mscale (- c) m)))
      else Ok None.

  Definition piqpi_block (s t : label) : res (option (mat R)) :=
    let '(v_i, al_i, L_i) := s in
    let '(v_f, al_f, L_f) := t in
    let* li := lam v_i in
    if negb (L_f =? L_i) then Ok None
    else
      let* lf := lam v_f in
      let lambdaa := (xa_lambda_base a + IZR li)%R in
      if v_f - v_i =? 3 then
        let* m := LC [(1%R, [Radial_b; Radial_D2b]); (IZR ((v_i + 2) * (v_i + 4)), [Radial_bm]);
                      (IZR (-2 * v_i - 5), [Radial_Db])] lambdaa (lf - li) 1 in
        let* q := QxQxQred_p3 v_i in let* c := to_float q in
        let* g := CG v_i al_i L_i 3 1 0 v_f al_f L_f in Ok (Some (mscale g (mscale c m)))
      else if v_f - v_i =? -3 then
        let* m := LC [(1%R, [Radial_b; Radial_D2b]); (IZR ((v_i - 1) * (v_i + 1)), [Radial_bm]);
                      (IZR (2 * v_i + 1), [Radial_Db])] lambdaa (lf - li) 1 in
        let* q := QxQxQred_m3 v_i in let* c := to_float q in
        let* g := CG v_i al_i L_i 3 1 0 v_f al_f L_f in Ok (Some (mscale g (mscale c m)))
      else if v_f - v_i =? 1 then Raise AttributeError
      else if v_f - v_i =? -1 then
        let* m := LC [(1%R, [Radial_b; Radial_D2b]); (IZR (- (v_i + 1) * (v_i + 2)), [Radial_bm])] lambdaa (lf - li) 0 in
        let* m2 := LC [(1%R, [Radial_Db]); (IZR (v_i + 1), [Radial_bm])] lambdaa (lf - li) 0 in
        let* q := QxQxQred_m1 v_i in let* c := to_float q in
        let* q2 := QixQxQred CG v_i v_f (v_f - 1) in let* c2 := to_float q2 in
        let* g := CG v_i al_i L_i 3 1 0 v_f al_f L_f in
        Ok (Some (mscale g (madd (mscale c m) (mscale (IZR (- (2 * v_i)) * c2) m2))))
      else Ok None.

  Hypothesis Ha : valid a.

  Let n := zlen (slabels a).
  Let rd := rdim a.

  Ltac crunch :=
    repeat match goal with
    | |- context [bind ?m _] => destruct m as [?|?]; cbn [bind]; try reflexivity
    end.

  Ltac stepping :=
    repeat first
      [ reflexivity
      | match goal with
        | |- context [if ?b then _ else _] => destruct b eqn:?
        | |- context [bind ?m _] =>
            lazymatch m with
            | bind _ _ => fail
            | match _ with _ => _ end => fail
            | _ => destruct m as [?|?] eqn:?; cbn [bind]
            end
        end ].

  Lemma Twin_asm rad_ops sph_ops :
    RepXspace_Twin RP CG lam rad_ops sph_ops a
    = let* SM := RepSO5r3_Prod CG (map YSym sph_ops) (xa_v_min a) (xa_v_max a) (xa_L_min a) (xa_L_max a) in
      asm n rd false (fun j i =>
        at2 (slabels a) (twin_block rad_ops
          (powerRZ Convert_red (NumSO5r3_Prod (map YSym sph_ops)) * ent SM i j)) j i).
  Proof.
    unfold RepXspace_Twin. rewrite xa_check_ok, xa_dim, xa_labels by assumption. cbn [bind].
    destruct (xa_rdim a Ha) as [-> _]. fold n rd.
    destruct (RepSO5r3_Prod _ _ _ _ _ _) as [SM|e]; cbn [bind]; [|reflexivity].
    set (cc := powerRZ Convert_red (NumSO5r3_Prod (map YSym sph_ops))).
    set (G := (fun (s : label) (li j i : Z) (D : mat R) =>
          let* t := label_at (slabels a) i in
          let* lf := lam (fst (fst t)) in
          if Req_EM_T (cc * ent SM i j) 0 then Ok D
          else
            let* rad_Mat := RP rad_ops (xa_anorm a) (xa_lambda_base a + IZR li) (lf - li) (xa_nu_min a) (xa_nu_max a) 0 in
            slice_set D (i * rd) (i * rd + rd) (j * rd) (j * rd + rd) (mscale (cc * ent SM i j) rad_Mat))).
    transitivity (for_ (py_range 1 (n + 1)) (fun j2 D =>
      let* s := label_at (slabels a) (j2 - 1) in
      let* li := lam (fst (fst s)) in
      for_ (py_range 1 (n + 1)) (fun i2 D => G s li (j2 - 1) (i2 - 1) D) D) (zeros (n * rd))).
    - apply for_ext. intros j2 D _.
      destruct (label_at (slabels a) (j2 - 1)) as [[[v_j a_j] L_j]|e]; cbn [bind fst]; [|reflexivity].
      destruct (lam v_j) as [li|e]; cbn [bind]; [|reflexivity].
      apply for_ext. intros i2 D' _.
      unfold G. destruct (label_at (slabels a) (i2 - 1)) as [[[v_i a_i] L_i]|e]; reflexivity.
    - rewrite (nested lam (slabels a) G) by apply zlen_nonneg. unfold asm. apply for_ext. intros [j i] D Hp. cbn [fst snd].
      apply pairs_In in Hp. destruct (label_at_ok (slabels a) i) as (t & Et & _); [apply Hp|].
      unfold G, asm_step, at2, twin_block. cbn [fst snd]. rewrite Et. cbn [bind]. stepping.
  Qed.

  Ltac assemble B G blockdef :=
    match goal with |- for_ _ ?body _ = asm n rd ?neg (at2 _ ?blk) => set (B := body);
    set (G := (fun (s : label) (li j i : Z) (D : mat R) =>
          asm_step rd neg (fun _ _ => at2 (slabels a) blk j i) (j, i) D)) end;
    transitivity (for_ (py_range 1 (n + 1)) (fun j2 D =>
      let* s := label_at (slabels a) (j2 - 1) in
      let* li := lam (fst (fst s)) in
      for_ (py_range 1 (n + 1)) (fun i2 D => G s li (j2 - 1) (i2 - 1) D) D)
      (zeros (n * rd)));
    [ apply for_ext; intros j2 D _; unfold B, G; unfold asm_step, at2, blockdef, LC; cbn [fst snd];
      destruct (label_at (slabels a) (j2 - 1)) as [[[v_j a_j] L_j]|e] eqn:EL; cbn [bind fst]; [|reflexivity];
      destruct (lam v_j) as [li|e] eqn:El; cbn [bind]; [|reflexivity];
      apply for_ext; intros i2 D' _; cbn [bind];
      destruct (label_at (slabels a) (i2 - 1)) as [[[v_i a_i] L_i]|e]; cbn [bind]; [|reflexivity];
      stepping
    | rewrite (nested lam (slabels a) G) by apply zlen_nonneg; unfold asm; apply for_ext; intros [j i] D Hp; cbn [fst snd];
      apply pairs_In in Hp; destruct (label_at_ok (slabels a) i) as ([[v_i a_i] L_i] & Et & _); [apply Hp|];
      unfold G, asm_step, at2, blockdef, LC; cbn [fst snd]; rewrite Et;
      destruct (label_at (slabels a) j) as [[[v_j a_j] L_j]|e] eqn:EL; cbn [bind fst]; [|reflexivity];
      destruct (lam v_j) as [li|e] eqn:El; cbn [bind]; reflexivity ].

  Lemma Pi_asm : RepXspace_Pi RP CG lam a = asm n rd false (at2 (slabels a) pi_block).
  Proof.
    unfold RepXspace_Pi. rewrite xa_check_ok, xa_dim, xa_labels by assumption. cbn [bind].
    rewrite Z.eqb_refl. cbn [py_assert bind].
    destruct (xa_rdim a Ha) as [-> _]. fold n rd. assemble B G pi_block.
  Qed.

  Lemma PiPi_asm PiPi_L : 0 <= PiPi_L ->
    RepXspace_PiPi RP CG lam PiPi_L a = asm n rd (PiPi_L =? 2) (at2 (slabels a) (pipi_block PiPi_L)).
  Proof.
    intros HL. unfold RepXspace_PiPi. rewrite require_nonnegint_ok by assumption. cbn [bind].
    rewrite xa_check_ok, xa_dim, xa_labels by assumption. cbn [bind].
    destruct (xa_rdim a Ha) as [-> _]. fold n rd. assemble B G pipi_block.
  Qed.

  Lemma PiqPi_asm : RepXspace_PiqPi RP CG lam a = asm n rd false (at2 (slabels a) piqpi_block).
  Proof.
    unfold RepXspace_PiqPi. rewrite xa_check_ok, xa_dim, xa_labels by assumption. cbn [bind].
    destruct (xa_rdim a Ha) as [-> _]. fold n rd. assemble B G piqpi_block.
  Qed.
End Blocks.
