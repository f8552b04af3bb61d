(** Properties C40, C41, C47, C61 and C62: diagonalisation, display of
    eigenvalues, scaling and adapting. *)

From Coq Require Import String Reals Lra Sorted.
From Coq Require Import Lia ZifyBool ZifyNat.
From Verif Require Import PyBase PyFacts Compat Text Format FormatFacts Operators SphericalSpec Spherical SphericalFacts FullLabels FullLabelsFacts
  Matrix FullSpace FullSpaceFacts PropsFullSpace Settings PropsSettings PropsRates Display DisplayFacts PropsDisplay.
Open Scope Z_scope.
Ltac Zify.zify_post_hook ::= Z.div_mod_to_equations.

(** ** C47 *)

(** The eigen-solver receives the symmetric part of a square matrix ... *)
Theorem C47_symmetrised : forall eigh H, nrows H = ncols H ->
  exists A, Eigenfiddle eigh H = eigh A /\ nrows A = nrows H /\ ncols A = ncols H /\
    (forall i j, ent A i j = ent A j i) /\
    (forall i j, ent A i j = (ent H i j + ent H j i) / 2)%R /\
    ((forall i j, ent A i j = ent H i j) <-> (forall i j, ent H i j = ent H j i)).
Proof.
  intros eigh H E. unfold Eigenfiddle. replace (nrows H =? ncols H) with true by lia. cbn [negb raise_if bind].
  eexists. split; [reflexivity|]. unfold mscale, madd, transpose. cbn [nrows ncols ent].
  split; [reflexivity|]. split; [reflexivity|]. split; [intros; lra|]. split; [intros; lra|].
  split; intros S i j; [specialize (S i j)|pose proof (S i j)]; lra.
Qed.

(** ... and no other matrix is accepted. *)
Theorem C47_not_square : forall eigh H, nrows H <> ncols H -> Eigenfiddle eigh H = Raise ValueError.
Proof. intros eigh H N. unfold Eigenfiddle. replace (nrows H =? ncols H) with false by lia. reflexivity. Qed.

Example C47_example : forall eigh : mat R -> res (list R * mat R),
  exists A, Eigenfiddle eigh (mkMat 2 2 (fun i j => if i <? j then 4%R else 2%R)) = eigh A /\ ent A 0 1 = 3%R /\ ent A 1 0 = 3%R /\ ent A 0 0 = 2%R.
Proof.
  intros. destruct (C47_symmetrised eigh (mkMat 2 2 (fun i j => if i <? j then 4%R else 2%R)) eq_refl) as (A & E & _ & _ & _ & F & _).
  exists A. split; [exact E|]. rewrite !F. cbn [ent]. cbn. lra.
Qed.

(** ** C62 *)

(** The smallest of the first elements; of lists in increasing order, the
    smallest of all elements. *)
Lemma fold_Rmin l : forall x, (forall y, In y (x :: l) -> (fold_left Rmin l x <= y)%R) /\ In (fold_left Rmin l x) (x :: l).
Proof.
  induction l as [|a l IH]; intros x; cbn [fold_left].
  - split; [intros y [<- | []]; lra|now left].
  - destruct (IH (Rmin x a)) as (A & B). split.
    + intros y [<- | [<- | H]]; [| |apply A; now right]; (eapply Rle_trans; [apply A; now left|]); [apply Rmin_l|apply Rmin_r].
    + destruct B as [B | B]; [|now right; right]. rewrite <- B. unfold Rmin. destruct (Rle_dec x a); [now left|right; now left].
Qed.

Theorem C62_lowest : forall ev low, min_head ev = Ok low ->
  (forall vals x, In vals ev -> nth_error vals 0 = Some x -> (low <= x)%R) /\
  (exists vals, In vals ev /\ nth_error vals 0 = Some low) /\
  (Forall (StronglySorted Rle) ev -> forall vals x, In vals ev -> In x vals -> (low <= x)%R).
Proof.
  intros ev low E. assert (H : forall vals x, In vals ev -> nth_error vals 0 = Some x -> (low <= x)%R).
  { intros vals x Hv Hx. unfold min_head in E. assert (Hh : In x (heads ev)).
    { unfold heads. apply in_flat_map. exists vals. split; [exact Hv|]. destruct vals; [discriminate|]. injection Hx as ->. now left. }
    destruct (heads ev) as [|y l]; [destruct Hh|]. injection E as <-. now apply fold_Rmin. }
  split; [exact H|]. split.
  - unfold min_head in E. assert (Hh : In low (heads ev)).
    { destruct (heads ev) as [|y l]; [discriminate|]. injection E as <-. apply fold_Rmin. }
    unfold heads in Hh. apply in_flat_map in Hh. destruct Hh as (vals & Hv & Hx). exists vals. split; [exact Hv|].
    destruct vals; [destruct Hx|]. destruct Hx as [-> | []]. reflexivity.
  - intros S vals x Hv Hx. rewrite Forall_forall in S. specialize (S vals Hv). destruct vals as [|y vals]; [destruct Hx|].
    specialize (H (y :: vals) y Hv eq_refl). inversion S as [|? ? _ F]; subst. rewrite Forall_forall in F.
    destruct Hx as [<- | Hx]; [exact H|]. specialize (F x Hx). lra.
Qed.

(** Only lists without any eigenvalue have no lowest one. *)
Theorem C62_no_lowest : forall ev e, min_head ev = Raise e <-> e = ValueError /\ forall vals, In vals ev -> vals = [].
Proof.
  intros ev e. unfold min_head. split.
  - intros E. destruct (heads ev) as [|y l] eqn:H; [|discriminate]. injection E as <-. split; [reflexivity|]. intros [|x vals] Hv; [reflexivity|].
    exfalso. assert (G : In x (heads ev)) by (apply in_flat_map; exists (x :: vals); split; [exact Hv|now left]). rewrite H in G. destruct G.
  - intros (-> & H). destruct (heads ev) as [|y l] eqn:E; [reflexivity|]. exfalso.
    assert (G : In y (heads ev)) by (rewrite E; now left). apply in_flat_map in G. destruct G as (vals & Hv & G). rewrite (H vals Hv) in G. destruct G.
Qed.

(** The range of angular momenta shown. *)
Definition shown_L (L_min L_max : option Z) (L : Z) : Prop :=
  match L_min, L_max with
  | None, None => 0 <= L <= 1000000
  | Some l, None => L = l
  | None, Some h => 0 <= L <= h
  | Some l, Some h => l <= L <= h
  end.
Definition range_ok (L_min L_max : option Z) : Prop :=
  match L_min, L_max with
  | None, None => True
  | Some l, None => 0 <= l <= 1000000
  | None, Some h => 0 <= h
  | Some l, Some h => 0 <= l <= h
  end.

(** One line: the first values of one angular momentum, less the lowest, divided
    by the scale factor; the angular momentum has width two, padded on the left. *)
Definition values_line (flt : text -> R -> text) (s : settings) (n : Z) (low : R) (L : Z) (vals : list R) : text :=
  chars "  At L=" ++ (if (length (dec_int L) <? 2)%nat then chars " " else []) ++ dec_int L ++ chars ": ["
  ++ separated (chars ",") (map (flt (number_spec s)) (map (fun x => (x - low) / g_eig_sft s)%R (firstn (Z.to_nat n) vals))) ++ chars "]".

Definition eigs_header (flt : text -> R -> text) (s : settings) (low : R) : text :=
  let f := chars "." ++ dec_int (g_low_pre s) ++ chars "f" in
  if g_eig_rel s
  then chars "Lowest eigenvalue is " ++ flt f low ++ chars ". Relative eigenvalues follow (each divided by " ++ flt f (g_eig_sft s) ++ chars "):"
  else chars "Scaled eigenvalues follow (each divided by " ++ flt f (g_eig_sft s) ++ chars ":".

Lemma dec2_padded L : dec2 L = (if (length (dec_int L) <? 2)%nat then chars " " else []) ++ dec_int L.
Proof.
  unfold dec2, zlen. destruct (length (dec_int L) <? 2)%nat eqn:E; [replace (Z.of_nat _ <? 2) with true by lia|replace (Z.of_nat _ <? 2) with false by lia]; reflexivity.
Qed.

Lemma pmap_select {A} (P : A -> bool) (line : A -> text) l s :
  pmap (fun x => if P x then print (line x) else pret tt) l s = (Ok tt, s, map line (filter P l)).
Proof.
  induction l as [|x l IH]; [reflexivity|]. cbn [pmap filter]. unfold pbind at 1.
  destruct (P x); cbn [map]; [unfold print at 1|unfold pret at 1]; rewrite IH; reflexivity.
Qed.

(** What Show_Eigs prints and returns. *)
Theorem C62_shown : forall flt ev Lvals n L_min L_max s low,
  0 < n -> ev <> [] -> range_ok L_min L_max -> (exists L, In L Lvals /\ shown_L L_min L_max L) ->
  (if g_eig_rel s then min_head ev = Ok low else low = 0%R) ->
  exists keep : Z * list R -> bool,
    (forall L vals, keep (L, vals) = true <-> shown_L L_min L_max L) /\
    Show_Eigs flt ev Lvals (Some n) L_min L_max s
    = (Ok (Some low), s, eigs_header flt s low :: map (fun '(L, vals) => values_line flt s n low L vals) (filter keep (combine Lvals ev))).
Proof.
  intros flt ev Lvals n L_min L_max s low Hn He Hr (L0 & H0 & H0') Hlow.
  set (p := match L_min, L_max with
        | Some l, None => (l, L_MAX_DEFAULT, l)
        | _, _ => (default 0 L_min, default L_MAX_DEFAULT L_max, default L_MAX_DEFAULT L_max)
        end).
  set (Lmin := fst (fst p)). set (Lmax := snd (fst p)). set (Ltop := snd p).
  assert (R1 : 0 <= Lmin <= Lmax).
  { subst Lmin Lmax p. destruct L_min, L_max; cbn in *; unfold L_MAX_DEFAULT in *; lia. }
  assert (R2 : forall L, (Lmin <=? L) && (L <=? Ltop) = true <-> shown_L L_min L_max L).
  { intros L. subst Lmin Ltop p. destruct L_min, L_max; cbn in *; unfold L_MAX_DEFAULT in *; lia. }
  exists (fun '(L, _) => (Lmin <=? L) && (L <=? Ltop)). split; [intros; apply R2|].
  unfold Show_Eigs. cbn [default]. rewrite require_nonnegint_ok by lia. unfold pbind at 1, praise at 1.
  replace (n =? 0) with false by lia. replace (zlen ev =? 0) with false by (unfold zlen; destruct ev; [congruence|cbn [length]; lia]). cbn [orb].
  cbv zeta. replace (match L_min, L_max with
        | Some l, None => (l, L_MAX_DEFAULT, l)
        | _, _ => (default 0 L_min, default L_MAX_DEFAULT L_max, default L_MAX_DEFAULT L_max)
        end) with (Lmin, Lmax, Ltop) by (subst Lmin Lmax Ltop p; destruct L_min, L_max; reflexivity).
  cbv beta iota.
  rewrite require_range_ok by lia. unfold pbind at 1, praise at 1.
  replace (existsb (fun L => (Lmin <=? L) && (L <=? Ltop)) Lvals) with true
    by (symmetry; apply existsb_exists; exists L0; split; [exact H0|now apply R2]).
  cbn [negb]. unfold pbind at 1, pget. 
  assert (EH : (if g_eig_rel s
     then run* m <- praise (min_head ev) ;;
          run! print (chars "Lowest eigenvalue is " ++ flt (wp_spec [] (g_low_pre s)) m ++ chars ". Relative eigenvalues follow"
                    ++ chars " (each divided by " ++ flt (wp_spec [] (g_low_pre s)) (g_eig_sft s) ++ chars "):") ;; pret m
     else run! print (chars "Scaled eigenvalues follow (each divided by " ++ flt (wp_spec [] (g_low_pre s)) (g_eig_sft s) ++ chars ":") ;; pret 0%R) s
     = (Ok low, s, [eigs_header flt s low])).
  { unfold eigs_header. destruct (g_eig_rel s).
    - rewrite Hlow. unfold pbind, praise, print, pret. cbn [app]. do 2 f_equal.
    - subst low. reflexivity. }
  unfold pbind at 1. rewrite EH. unfold pbind at 1.
  rewrite (pmap_ext _ (fun x => if (let '(L, _) := x in (Lmin <=? L) && (L <=? Ltop)) then
       print (let '(L, vals) := x in eig_line flt s n low L vals) else pret tt)) by (intros [L vals] _ s0; reflexivity).
  rewrite pmap_select. unfold pret. cbn [app]. rewrite app_nil_r. do 2 f_equal.
  apply map_ext. intros [L vals]. unfold eig_line, values_line. rewrite map_map, dec2_padded, join_separated, <- !app_assoc. reflexivity.
Qed.

(** Nothing is shown for no eigenvalues, no number or no angular momentum; a
    wrong range raises ValueError. *)
Theorem C62_nothing : forall flt ev Lvals n L_min L_max s, 0 <= n ->
  (n = 0 \/ ev = [] -> Show_Eigs flt ev Lvals (Some n) L_min L_max s = (Ok None, s, [])) /\
  (0 < n -> ev <> [] -> range_ok L_min L_max -> (forall L, In L Lvals -> ~ shown_L L_min L_max L) ->
   Show_Eigs flt ev Lvals (Some n) L_min L_max s = (Ok None, s, [])) /\
  (0 < n -> ev <> [] -> ~ range_ok L_min L_max -> Show_Eigs flt ev Lvals (Some n) L_min L_max s = (Raise ValueError, s, [])).
Proof.
  intros flt ev Lvals n L_min L_max s Hn.
  assert (B : forall A (m : prog A), peq (pbind (praise (require_nonnegint n)) (fun _ => m)) m).
  { intros A m. rewrite require_nonnegint_ok by lia. exact (pbind_ok tt (fun _ => m)). }
  split; [intros [-> | ->]; unfold Show_Eigs; cbn [default]; rewrite B; [reflexivity|rewrite orb_true_r; reflexivity]|].
  assert (Z0 : 0 < n -> ev <> [] -> (n =? 0) || (zlen ev =? 0) = false).
  { intros. unfold zlen. destruct ev; [congruence|]. cbn [length]. lia. }
  set (p := match L_min, L_max with
        | Some l, None => (l, L_MAX_DEFAULT, l)
        | _, _ => (default 0 L_min, default L_MAX_DEFAULT L_max, default L_MAX_DEFAULT L_max)
        end).
  set (Lmin := fst (fst p)). set (Lmax := snd (fst p)). set (Ltop := snd p).
  assert (R1 : 0 <= Lmin <= Lmax <-> range_ok L_min L_max).
  { subst Lmin Lmax p. destruct L_min, L_max; cbn in *; unfold L_MAX_DEFAULT in *; lia. }
  assert (R2 : forall L, (Lmin <=? L) && (L <=? Ltop) = true <-> shown_L L_min L_max L).
  { intros L. subst Lmin Ltop p. destruct L_min, L_max; cbn in *; unfold L_MAX_DEFAULT in *; lia. }
  assert (E0 : match L_min, L_max with
        | Some l, None => (l, L_MAX_DEFAULT, l)
        | _, _ => (default 0 L_min, default L_MAX_DEFAULT L_max, default L_MAX_DEFAULT L_max)
        end = (Lmin, Lmax, Ltop)) by (subst Lmin Lmax Ltop p; destruct L_min, L_max; reflexivity).
  split.
  - intros H1 H2 H3 H4. unfold Show_Eigs. cbn [default]. rewrite B. rewrite Z0 by assumption. cbv zeta. rewrite E0.
    rewrite require_range_ok by tauto. unfold pbind at 1, praise.
    replace (existsb (fun L => (Lmin <=? L) && (L <=? Ltop)) Lvals) with false; [reflexivity|].
    symmetry. apply not_true_is_false. intros E. apply existsb_exists in E. destruct E as (L & HL & E). apply (H4 L HL). now apply R2.
  - intros H1 H2 H3. unfold Show_Eigs. cbn [default]. rewrite B. rewrite Z0 by assumption. cbv zeta. rewrite E0.
    destruct (range_cases Lmin Lmax) as [[A _] | [_ A]]; [tauto|]. rewrite A. reflexivity.
Qed.

(** ** C40 *)

Lemma pbind_inv {A B} (m : prog A) (f : A -> prog B) s r s' o : pbind m f s = (r, s', o) ->
  (exists a s1 o1 o2, m s = (Ok a, s1, o1) /\ f a s1 = (r, s', o2) /\ o = o1 ++ o2) \/
  (exists e, m s = (Raise e, s', o) /\ r = Raise e).
Proof.
  unfold pbind. destruct (m s) as [[[a|e] s1] o1]; intros E.
  - left. exists a, s1, o1. destruct (f a s1) as [[r2 s2] o2]. injection E as <- <- <-. exists o2. auto.
  - right. injection E as <- <- <-. exists e. auto.
Qed.

(** Only the scale factors differ. *)
Definition rescaled (s s' : settings) : Prop := exists a b c, s' = w_amp_sft a (w_rat_sft b (w_eig_sft c s)).

Lemma rescaled_refl s : rescaled s s.
Proof. exists (g_amp_sft s), (g_rat_sft s), (g_eig_sft s). destruct s. reflexivity. Qed.
Lemma rescaled_trans s1 s2 s3 : rescaled s1 s2 -> rescaled s2 s3 -> rescaled s1 s3.
Proof. intros (a & b & c & ->) (a' & b' & c' & ->). exists a', b', c'. destruct s1. reflexivity. Qed.

Lemma rescaled_eig s x : rescaled s (w_eig_sft x s).
Proof. exists (g_amp_sft s), (g_rat_sft s), x. destruct s. reflexivity. Qed.
Lemma rescaled_rat s x : rescaled s (w_rat_sft x s).
Proof. exists (g_amp_sft s), x, (g_eig_sft s). destruct s. reflexivity. Qed.
Lemma rescaled_amp s x : rescaled s (w_amp_sft x s).
Proof. exists x, (g_rat_sft s), (g_eig_sft s). destruct s. reflexivity. Qed.

Definition rescales {A} (m : prog A) : Prop := forall s, rescaled s (snd (fst (m s))).
Lemma rescales_keeps {A} (m : prog A) : keeps m -> rescales m.
Proof. intros K s. rewrite K. apply rescaled_refl. Qed.
Lemma rescales_bind {A B} (m : prog A) (f : A -> prog B) : rescales m -> (forall a, rescales (f a)) -> rescales (pbind m f).
Proof.
  intros H1 H2 s. unfold pbind. specialize (H1 s). destruct (m s) as [[[a|e] s1] o1]; [|exact H1]. cbn [fst snd] in H1.
  specialize (H2 a s1). destruct (f a s1) as [[r2 s2] o2]. cbn [fst snd] in *. eapply rescaled_trans; eassumption.
Qed.

Lemma nest {A} (x : res A * settings * list text) : (let '(r, s, o) := x in (r, s, [] ++ o)) = x.
Proof. now destruct x as [[r s] o]. Qed.

Section Driver.
  Variable flt : text -> R -> text.
  Variable RepX : settings -> OperatorSum -> R -> R -> Z -> Z -> Z -> Z -> Z -> option Z -> res (mat R).
  Variable eigh : mat R -> res (list R * mat R).
  Variable inv : mat R -> res (mat R).
  Variable junk : Z -> Z -> R.
  Variables (ham_op : OperatorSum) (anorm lambda_base : R) (nu_min nu_max v_min v_max : Z).
  Let run := ACM_ScaleOrAdapt flt RepX eigh inv junk ham_op anorm lambda_base nu_min nu_max v_min v_max.

  Lemma keeps_eigs ev Lv (s : settings) : keeps (if 0 <? g_eig_num s then
                run! (if 0 <? 0 then fit_eigenvalues ev Lv else pret tt) ;;
                run! Show_Eigs flt ev Lv (Some (g_eig_num s)) None None ;; pret tt
              else pret tt).
  Proof.
    destruct (0 <? g_eig_num s); [|apply keeps_pret]. replace (0 <? 0) with false by reflexivity.
    apply keeps_bind; [apply keeps_pret|intros]. apply keeps_bind; [apply keeps_Show_Eigs|intros]. apply keeps_pret.
  Qed.

  (** Scaling changes no setting, whatever the outcome. *)
  Theorem C40_scale_keeps : forall L_min L_max s,
    snd (fst (ACM_Scale flt RepX eigh inv junk ham_op anorm lambda_base nu_min nu_max v_min v_max L_min L_max s)) = s.
  Proof.
    intros L_min L_max. change (keeps (run 0 0 L_min L_max)). unfold run, ACM_ScaleOrAdapt.
    do 5 (apply keeps_bind; [apply keeps_praise|intros _]). apply keeps_bind; [apply keeps_pget|intros s].
    replace (0 <? 0) with false by reflexivity. cbn [andb].
    do 2 (apply keeps_bind; [apply keeps_pret|intros _]). apply keeps_bind; [apply keeps_praise|intros [[ev ebs] Lv]].
    apply keeps_bind; [apply (keeps_eigs ev Lv s)|intros _]. apply keeps_bind; [|intros; apply keeps_pret].
    destruct (_ || _); [|apply keeps_pret]. apply keeps_bind; [apply keeps_praise|intros [m fs]].
    apply keeps_bind; [apply keeps_pret|intros _]. apply keeps_bind; [apply keeps_Show_Rats|intros _].
    apply keeps_bind; [apply keeps_Show_Amps|intros _]. apply keeps_pret.
  Qed.

  Lemma rescales_fit_eig ev Lv : rescales (fit_eigenvalues ev Lv).
  Proof.
    unfold fit_eigenvalues. apply rescales_bind; [apply rescales_keeps, keeps_pget|intros s].
    do 4 (apply rescales_bind; [apply rescales_keeps, keeps_praise|intros ?]).
    apply rescales_bind; [|intros; destruct (Req_EM_T _ _); apply rescales_keeps; [apply keeps_praise|apply keeps_pret]].
    intros s0. apply rescaled_eig.
  Qed.

  Lemma rescales_fit_rat tr Lv : rescales (fit_rates tr Lv).
  Proof.
    unfold fit_rates. apply rescales_bind; [apply rescales_keeps, keeps_pget|intros s].
    do 5 (apply rescales_bind; [apply rescales_keeps, keeps_praise|intros ?]).
    apply rescales_bind; [intros s0; apply rescaled_rat|intros _].
    destruct (Req_EM_T _ _); [apply rescales_keeps, keeps_praise|].
    apply rescales_bind; [apply rescales_keeps, keeps_praise|intros am].
    intros s0; apply rescaled_amp.
  Qed.

  (** Fitting changes the scale factors only, whatever the outcome. *)
  Theorem C40_only_scale_factors : forall fit_eig fit_rat L_min L_max s,
    let s' := snd (fst (ACM_ScaleOrAdapt flt RepX eigh inv junk ham_op anorm lambda_base nu_min nu_max v_min v_max fit_eig fit_rat L_min L_max s)) in
    exists a b c, s' = w_amp_sft a (w_rat_sft b (w_eig_sft c s)).
  Proof.
    intros fe fr L_min L_max. change (rescales (run fe fr L_min L_max)). unfold run, ACM_ScaleOrAdapt.
    do 5 (apply rescales_bind; [apply rescales_keeps, keeps_praise|intros _]). apply rescales_bind; [apply rescales_keeps, keeps_pget|intros s].
    apply rescales_bind; [destruct (_ && _); apply rescales_keeps; [apply keeps_praise|apply keeps_pret]|intros _].
    apply rescales_bind; [destruct (_ && _); apply rescales_keeps; keep|intros _].
    apply rescales_bind; [apply rescales_keeps, keeps_praise|intros [[ev ebs] Lv]].
    apply rescales_bind.
    { destruct (0 <? g_eig_num s); [|apply rescales_keeps, keeps_pret].
      apply rescales_bind; [destruct (0 <? fe); [apply rescales_fit_eig|apply rescales_keeps, keeps_pret]|intros _].
      apply rescales_bind; [apply rescales_keeps, keeps_Show_Eigs|intros; apply rescales_keeps, keeps_pret]. }
    intros _. apply rescales_bind; [|intros; apply rescales_keeps, keeps_pret].
    destruct (_ || _); [|apply rescales_keeps, keeps_pret]. apply rescales_bind; [apply rescales_keeps, keeps_praise|intros [m fs]].
    apply rescales_bind; [destruct (0 <? fr); [apply rescales_fit_rat|apply rescales_keeps, keeps_pret]|intros _].
    apply rescales_bind; [apply rescales_keeps, keeps_Show_Rats|intros _].
    apply rescales_bind; [apply rescales_keeps, keeps_Show_Amps|intros _]. apply rescales_keeps, keeps_pret.
  Qed.

  (** The stages of a run. *)
  Definition eig_stage (fe : Z) (s : settings) (ev : list (list R)) (Lv : list Z) : prog unit :=
    if 0 <? g_eig_num s then
      run! (if 0 <? fe then fit_eigenvalues ev Lv else pret tt) ;;
      run! Show_Eigs flt ev Lv (Some (g_eig_num s)) None None ;; pret tt
    else pret tt.
  Definition amp_stage (s : settings) (ebs : list (mat R)) (Lv : list Z) : res (mat (option R) * LBlockFullSpace) :=
    AmpXspeig (fun lo hi => RepX s (g_rat_TRop s) anorm lambda_base nu_min nu_max v_min v_max lo (Some hi)) inv ebs nu_min nu_max v_min v_max Lv.
  Definition rat_stage (fr : Z) (s : settings) (ebs : list (mat R)) (Lv : list Z) : prog (option block_array) :=
    if (0 <? zlen (g_rat_lst s)) || (0 <? zlen (g_amp_lst s)) then
      run* (m, fs) <- praise (amp_stage s ebs Lv) ;;
      let trans := (known junk m, fs) in
      run! (if 0 <? fr then fit_rates trans Lv else pret tt) ;;
      run! Show_Rats flt trans (Some (g_rat_lst s)) (Some (g_rat_num s)) ;;
      run! Show_Amps flt trans (Some (g_amp_lst s)) (Some (g_amp_num s)) ;;
      pret (Some trans)
    else pret None.
  Definition dig (s : settings) (L_min : Z) (L_max : option Z) :=
    DigXspace (RepX s ham_op anorm lambda_base nu_min nu_max v_min v_max) (Eigenfiddle eigh) (Op_Tame ham_op)
      nu_min nu_max v_min v_max L_min L_max.

  (** A reference state: in the range, and the space of its angular momentum is
      large enough. *)
  Definition available (L idx L_min : Z) (L_max : option Z) : Prop :=
    L_min <= L <= L_top L_min L_max /\ exists d, dimXspace nu_min nu_max v_min v_max L None = Ok d /\ idx <= d.

  Definition checks (fe fr : Z) (s : settings) (L_min : Z) (L_max : option Z) : res unit :=
    check require_nonnegint fe ;; check require_nonnegint fr ;; check require_nonnegint_range nu_min nu_max ;;
    check require_nonnegint_range v_min v_max ;; check require_nonnegint_range L_min (L_top L_min L_max) ;;
    check (if (0 <? fe) && (0 <? g_eig_num s) then check_reference nu_min nu_max v_min v_max (g_eig_L s) (g_eig_idx s) L_min (L_top L_min L_max) else Ok tt) ;;
    if (0 <? fr) && (0 <? zlen (g_rat_lst s)) then
      check check_reference nu_min nu_max v_min v_max (g_rat_L1 s) (g_rat_1dx s) L_min (L_top L_min L_max) ;;
      check_reference nu_min nu_max v_min v_max (g_rat_L2 s) (g_rat_2dx s) L_min (L_top L_min L_max)
    else Ok tt.

  Lemma run_stages fe fr L_min L_max s :
    run fe fr L_min L_max s
    = pbind (praise (let* _ := checks fe fr s L_min L_max in dig s L_min L_max)) (fun '(ev, ebs, Lv) =>
        run! eig_stage fe s ev Lv ;;
        run* tr <- rat_stage fr s ebs Lv ;;
        pret (ev, tr, Lv)) s.
  Proof.
    unfold run, ACM_ScaleOrAdapt, checks. cbv zeta. fold (L_top L_min L_max).
    set (N := require_nonnegint_range L_min (L_top L_min L_max)).
    unfold pbind at 1, praise at 1. destruct (require_nonnegint fe) as [[]|]; [|reflexivity]. cbn [bind].
    unfold pbind at 1, praise at 1. destruct (require_nonnegint fr) as [[]|]; [|reflexivity]. cbn [bind].
    unfold pbind at 1, praise at 1. destruct (require_nonnegint_range nu_min nu_max) as [[]|]; [|reflexivity]. cbn [bind].
    unfold pbind at 1, praise at 1. destruct (require_nonnegint_range v_min v_max) as [[]|]; [|reflexivity]. cbn [bind].
    unfold pbind at 1, praise at 1. destruct N as [[]|]; [|reflexivity]. cbn [bind].
    unfold pbind at 1, pget at 1.
    fold (dig s L_min L_max).
    set (C1 := if (0 <? fe) && (0 <? g_eig_num s) then check_reference nu_min nu_max v_min v_max (g_eig_L s) (g_eig_idx s) L_min (L_top L_min L_max) else Ok tt).
    set (k := fun x : _ * _ * _ => let '(ev, ebs, Lv) := x in run! eig_stage fe s ev Lv ;; run* tr <- rat_stage fr s ebs Lv ;; pret (ev, tr, Lv)).
    match goal with |- context [pbind (praise (dig s L_min L_max)) ?f] => change f with k end.
    set (C2 := if (0 <? fr) && (0 <? zlen (g_rat_lst s)) then
                 check check_reference nu_min nu_max v_min v_max (g_rat_L1 s) (g_rat_1dx s) L_min (L_top L_min L_max) ;;
                 check_reference nu_min nu_max v_min v_max (g_rat_L2 s) (g_rat_2dx s) L_min (L_top L_min L_max)
               else Ok tt).
    assert (E1 : (if (0 <? fe) && (0 <? g_eig_num s)
              then praise (check_reference nu_min nu_max v_min v_max (g_eig_L s) (g_eig_idx s) L_min (L_top L_min L_max)) else pret tt) s = praise C1 s)
      by (unfold C1; destruct ((0 <? fe) && (0 <? g_eig_num s)); reflexivity).
    assert (E2 : (if (0 <? fr) && (0 <? zlen (g_rat_lst s)) then
                run! praise (check_reference nu_min nu_max v_min v_max (g_rat_L1 s) (g_rat_1dx s) L_min (L_top L_min L_max)) ;;
                praise (check_reference nu_min nu_max v_min v_max (g_rat_L2 s) (g_rat_2dx s) L_min (L_top L_min L_max))
              else pret tt) s = praise C2 s).
    { unfold C2; destruct ((0 <? fr) && (0 <? zlen (g_rat_lst s))); [|reflexivity]. unfold pbind, praise.
      destruct (check_reference _ _ _ _ (g_rat_L1 s) _ _ _) as [[]|]; [|reflexivity]. cbn [bind].
      destruct (check_reference _ _ _ _ (g_rat_L2 s) _ _ _) as [[]|]; reflexivity. }
    unfold pbind at 1. rewrite E1. unfold praise at 1. destruct C1 as [[]|]; [|reflexivity]. cbn [bind].
    unfold pbind at 1. rewrite E2. unfold praise at 1. destruct C2 as [[]|]; [|reflexivity]. cbn [bind].
    rewrite !nest. reflexivity.
  Qed.

  (** What the numerical routines owe: the shapes of their results. *)
  Definition good_shapes : Prop :=
    (forall s op lo hi m N, RepX s op anorm lambda_base nu_min nu_max v_min v_max lo hi = Ok m ->
       dimXspace nu_min nu_max v_min v_max lo hi = Ok N -> nrows m = N /\ ncols m = N) /\
    (forall M vals P, nrows M = ncols M -> eigh M = Ok (vals, P) -> zlen vals = nrows M /\ nrows P = nrows M /\ ncols P = nrows M) /\
    (forall M Q, nrows M = ncols M -> inv M = Ok Q -> nrows Q = nrows M /\ ncols Q = nrows M).

  Lemma fit_eigenvalues_ok ev Lv s r s' o : fit_eigenvalues ev Lv s = (r, s', o) ->
    o = [] /\
    (r = Ok tt -> exists low vals x,
       (if g_eig_rel s then min_head ev = Ok low else low = 0%R) /\ In (g_eig_L s) Lv /\ In (g_eig_L s, vals) (combine Lv ev) /\
       py_get vals (g_eig_idx s - 1) = Ok x /\ s' = w_eig_sft ((x - low) / g_eig_fit s) s /\ ((x - low) / g_eig_fit s)%R <> 0%R).
  Proof.
    unfold fit_eigenvalues, pbind, praise, pget, passign, pret. intros E.
    destruct (if g_eig_rel s then min_head ev else Ok 0%R) as [low|] eqn:E1; [|injection E as <- <- <-; split; [reflexivity|discriminate]].
    destruct (mem (g_eig_L s) Lv) eqn:E2; cbn [negb raise_if] in E; [|injection E as <- <- <-; split; [reflexivity|discriminate]].
    destruct (find _ (combine Lv ev)) as [[L vals]|] eqn:E3; [|injection E as <- <- <-; split; [reflexivity|discriminate]].
    destruct (py_get vals (g_eig_idx s - 1)) as [x|] eqn:E4; [|injection E as <- <- <-; split; [reflexivity|discriminate]].
    apply find_some in E3. destruct E3 as (E3 & E3'). apply Z.eqb_eq in E3'. subst L.
    destruct (Req_EM_T _ _) as [|NZ]; injection E as <- <- <-; (split; [reflexivity|]); [discriminate|]. intros _.
    exists low, vals, x. split; [destruct (g_eig_rel s); congruence|]. apply mem_In in E2. auto.
  Qed.

  (** A part of the settings that a program leaves as it is. *)
  Definition fixes {T A} (g : settings -> T) (m : prog A) : Prop := forall s, g (snd (fst (m s))) = g s.
  Lemma fixes_keeps {T A} (g : settings -> T) (m : prog A) : keeps m -> fixes g m.
  Proof. intros K s. now rewrite K. Qed.
  Lemma fixes_bind {T A B} (g : settings -> T) (m : prog A) (f : A -> prog B) : fixes g m -> (forall a, fixes g (f a)) -> fixes g (pbind m f).
  Proof.
    intros H1 H2 s. unfold pbind. specialize (H1 s). destruct (m s) as [[[a|e] s1] o1]; [|exact H1]. cbn [fst snd] in H1.
    specialize (H2 a s1). destruct (f a s1) as [[r2 s2] o2]. cbn [fst snd] in *. congruence.
  Qed.
  Lemma fixes_rat_stage fr s ebs Lv : fixes g_eig_sft (rat_stage fr s ebs Lv).
  Proof.
    unfold rat_stage. destruct (_ || _); [|apply fixes_keeps, keeps_pret]. apply fixes_bind; [apply fixes_keeps, keeps_praise|intros [m fs]].
    apply fixes_bind; [destruct (0 <? fr); [|apply fixes_keeps, keeps_pret]|].
    { unfold fit_rates. apply fixes_bind; [apply fixes_keeps, keeps_pget|intros].
      do 5 (apply fixes_bind; [apply fixes_keeps, keeps_praise|intros ?]).
      apply fixes_bind; [intros s0; now destruct s0|intros _]. destruct (Req_EM_T _ _); [apply fixes_keeps, keeps_praise|].
      apply fixes_bind; [apply fixes_keeps, keeps_praise|intros]. intros s0. now destruct s0. }
    intros _. apply fixes_bind; [apply fixes_keeps, keeps_Show_Rats|intros _].
    apply fixes_bind; [apply fixes_keeps, keeps_Show_Amps|intros _]. apply fixes_keeps, keeps_pret.
  Qed.

  Lemma keeps_run {A} (m : prog A) s r s' o : keeps m -> m s = (r, s', o) -> s' = s.
  Proof. intros K E. specialize (K s). now rewrite E in K. Qed.

  (** After a run that fitted the eigenvalues: the scale factor, and the line on
      which the reference state appears with exactly the fit value. *)
  Theorem C40_adapt_eigenvalue : forall fit_eig fit_rat L_min L_max s ev tr Lv s' o,
    ACM_ScaleOrAdapt flt RepX eigh inv junk ham_op anorm lambda_base nu_min nu_max v_min v_max fit_eig fit_rat L_min L_max s = (Ok (ev, tr, Lv), s', o) ->
    0 < fit_eig -> 0 < g_eig_num s -> 1 <= g_eig_idx s -> g_eig_fit s <> 0%R -> g_eig_L s <= 1000000 ->
    exists vals x low,
      In (g_eig_L s, vals) (combine Lv ev) /\ nth_error vals (Z.to_nat (g_eig_idx s - 1)) = Some x /\
      (if g_eig_rel s then min_head ev = Ok low else low = 0%R) /\
      g_eig_sft s' = ((x - low) / g_eig_fit s)%R /\ g_eig_sft s' <> 0%R /\ ((x - low) / g_eig_sft s')%R = g_eig_fit s /\
      In (values_line flt s' (g_eig_num s) low (g_eig_L s) vals) o.
  Proof.
    intros fe fr L_min L_max s ev tr Lv s' o E Hfe Hnum Hidx Hfit HL.
    pose proof (C40_only_scale_factors fe fr L_min L_max s) as (aa & bb & cc & RS). rewrite E in RS. cbn [fst snd] in RS.
    change (run fe fr L_min L_max s = (Ok (ev, tr, Lv), s', o)) in E. rewrite run_stages in E.
    apply pbind_inv in E. destruct E as [(x & s0 & o0 & o1 & E0 & E & ->) | (e & _ & X)]; [|discriminate].
    unfold praise in E0. injection E0 as E0 <- <-. destruct x as [[ev0 ebs] Lv0].
    apply bind_ok in E0. destruct E0 as ([] & EC & ED).
    assert (HL0 : 0 <= g_eig_L s).
    { apply Dig_valid in ED. unfold checks in EC. do 5 (apply bind_ok in EC; destruct EC as ([] & _ & EC)). apply bind_ok in EC. destruct EC as ([] & EC & _).
      replace (0 <? fe) with true in EC by lia. replace (0 <? g_eig_num s) with true in EC by lia. cbn [andb] in EC. unfold check_reference, raise_if in EC.
      destruct ((g_eig_L s <? L_min) || (L_top L_min L_max <? g_eig_L s)) eqn:EL; [discriminate|]. lia. }
    apply pbind_inv in E. destruct E as [(u & s1 & o1' & o2 & E1 & E & ->) | (e & _ & X)]; [|discriminate].
    apply pbind_inv in E. destruct E as [(tr0 & s2 & o3 & o4 & E2 & E & ->) | (e & _ & X)]; [|discriminate].
    unfold pret in E. injection E as -> -> -> -> <-.
    pose proof (fixes_rat_stage fr s ebs Lv s1) as K2. rewrite E2 in K2. cbn [fst snd] in K2.
    unfold eig_stage in E1. replace (0 <? g_eig_num s) with true in E1 by lia. replace (0 <? fe) with true in E1 by lia.
    apply pbind_inv in E1. destruct E1 as [(u1 & s3 & o5 & o6 & E3 & E1 & ->) | (e & _ & X)]; [|discriminate].
    apply fit_eigenvalues_ok in E3. destruct E3 as (-> & E3). destruct u1. destruct (E3 eq_refl) as (low & vals & x & Hlow & Hin & Hv & Hx & -> & NZ).
    set (sft := ((x - low) / g_eig_fit s)%R) in *.
    apply pbind_inv in E1. destruct E1 as [(u1 & s4 & o7 & o8 & E4 & E1 & ->) | (e & _ & X)]; [|destruct u; discriminate].
    unfold pret in E1. injection E1 as <- -> <-.
    exists vals, x, low. split; [exact Hv|]. split.
    { unfold py_get in Hx. replace (g_eig_idx s - 1 <? 0) with false in Hx by lia. replace (g_eig_idx s - 1 <? 0) with false in Hx by lia.
      destruct (nth_error vals _); congruence. }
    split; [exact Hlow|].
    assert (ES : g_eig_sft s' = sft).
    { rewrite K2. apply keeps_run in E4; [|apply keeps_Show_Eigs]. subst s1. destruct s; reflexivity. }
    split; [exact ES|]. split; [rewrite ES; exact NZ|]. split.
    { rewrite ES. unfold sft in *. field. split; [exact Hfit|]. intros Z. apply NZ. rewrite Z. unfold Rdiv. ring. }
    destruct (C62_shown flt ev Lv (g_eig_num s) None None (w_eig_sft sft s) low) as (keep & Hk & EE); try exact I; try lia.
    - intros ->. destruct Lv; destruct Hv.
    - exists (g_eig_L s). split; [exact Hin|]. unfold shown_L. lia.
    - destruct s; exact Hlow.
    - rewrite EE in E4. injection E4 as <- <- <-. cbn [app]. right. rewrite app_nil_r. apply in_or_app. left.
      apply in_map_iff. exists (g_eig_L s, vals). split.
      + unfold values_line, number_spec. rewrite ES. rewrite RS. destruct s; reflexivity.
      + apply filter_In. split; [exact Hv|]. apply Hk. unfold shown_L. lia.
  Qed.

  (** The array of transition amplitudes. *)
  Lemma last_In {A} (l : list A) d : l <> [] -> In (last l d) l.
  Proof. intros N. destruct (@exists_last _ l N) as (l' & z & ->). rewrite last_last. apply in_or_app. right. now left. Qed.
  Lemma slice_set_shape {A} (m : mat A) r0 r1 c0 c1 b m' : slice_set m r0 r1 c0 c1 b = Ok m' -> nrows m' = nrows m /\ ncols m' = ncols m.
  Proof. unfold slice_set. destruct (_ && _); [|discriminate]. intros E. injection E as <-. now split. Qed.
  Lemma amp_cols_shape fs T P L cols : forall r r', amp_cols fs T P L cols r = Ok r' -> nrows r' = nrows r /\ ncols r' = ncols r.
  Proof.
    induction cols as [|[Q Lc] cols IH]; intros r r' E; cbn [amp_cols] in E; [injection E as <-; now split|].
    apply bind_ok in E. destruct E as (b & _ & E). apply bind_ok in E. destruct E as (x & _ & E). apply bind_ok in E. destruct E as (y & _ & E).
    apply bind_ok in E. destruct E as (r1 & E1 & E). apply IH in E. unfold set_block in E1.
    apply bind_ok in E1. destruct E1 as ([? ?] & _ & E1). apply bind_ok in E1. destruct E1 as ([? ?] & _ & E1). apply slice_set_shape in E1.
    destruct E, E1. split; congruence.
  Qed.
  Lemma amp_rows_shape fs T cols rows : forall r r', amp_rows fs T cols rows r = Ok r' -> nrows r' = nrows r /\ ncols r' = ncols r.
  Proof.
    induction rows as [|[Q Lc] rows IH]; intros r r' E; cbn [amp_rows] in E; [injection E as <-; now split|].
    apply bind_ok in E. destruct E as (r1 & E1 & E). apply amp_cols_shape in E1. apply IH in E. destruct E, E1. split; congruence.
  Qed.

  Lemma amp_stage_blocks s L_min L_max ev ebs Lv m fs :
    good_shapes -> dig s L_min L_max = Ok (ev, ebs, Lv) -> amp_stage s ebs Lv = Ok (m, fs) ->
    fs_Lvals fs = Lv /\ nrows m = ncols m /\
    exists start dim, array_blocks (known junk m, fs) start dim /\
      forall L, In L Lv -> dimXspace nu_min nu_max v_min v_max L None = Ok (dim L).
  Proof.
    intros (GS & _) ED EA. pose proof (Dig_valid _ _ _ _ _ _ _ _ _ _ ED) as (Hn & Hv & HL).
    destruct (C38_Lvals _ _ _ _ _ _ _ _ _ _ _ _ _ ED) as (Hs & HLv & _ & _ & Hval & Hemp).
    assert (NE : Lv <> []). { intros ->. unfold amp_stage, AmpXspeig in EA. rewrite (Hemp eq_refl) in EA. discriminate. }
    unfold amp_stage, AmpXspeig in EA. rewrite (Hval NE) in EA. cbn [bind] in EA.
    apply bind_ok in EA. destruct EA as (fs0 & EF & EA). apply bind_ok in EA. destruct EA as ([lo hi] & EH & EA).
    apply bind_ok in EA. destruct EA as (T & ET & EA). apply bind_ok in EA. destruct EA as (T' & ET' & EA).
    unfold LBlockNDFloatArray_init in ET', EA. destruct (nrows T =? ncols T) eqn:Sq; [|discriminate]. cbn [negb raise_if bind np_empty nrows ncols] in ET', EA.
    injection ET' as <-. rewrite Sq in EA. cbn [negb raise_if bind] in EA. apply bind_ok in EA. destruct EA as (invs & _ & EA). apply bind_ok in EA. destruct EA as (r & ER & EA).
    injection EA as <- <-. apply amp_rows_shape in ER. cbn [nrows ncols np_empty] in ER. destruct ER as (R1 & R2).
    assert (EFL : fs_Lvals fs0 = Lv).
    { unfold LBlockFullSpace_init in EF. do 2 (apply bind_ok in EF; destruct EF as ([] & _ & EF)). apply bind_ok in EF. destruct EF as (bs & _ & EF). now injection EF as <-. }
    split; [exact EFL|]. split; [lia|].
    assert (NN : forall L, In L Lv -> 0 <= L) by (intros L H; apply HLv in H; lia).
    assert (ND : NoDup Lv) by (eapply StronglySorted_NoDup; [|exact Hs]; intros; lia).
    assert (Hr : (forall L, In L Lv -> lo <= L <= hi) /\ In lo Lv).
    { destruct Lv as [|x0 l0]; [congruence|]. cbn [head_last] in EH. injection EH as Eh Et.
      split; [|rewrite Eh; now left]. intros L Hin. rewrite <- Et, <- Eh. now apply sorted_head_last. }
    destruct Hr as (Hr & Hx). pose proof (Hr _ Hx). pose proof (NN _ Hx).
    assert (EN : dimXspace nu_min nu_max v_min v_max lo (Some hi) = Ok (zlen (xlbs nu_min nu_max v_min v_max lo hi))) by (rewrite dimXspace_ok by (cbn; lia); reflexivity).
    destruct (GS _ _ _ _ _ _ ET EN) as (T1 & T2).
    assert (Hhi : lo <= L_top L_min L_max /\ hi <= L_top L_min L_max /\ L_min <= lo).
    { destruct Lv as [|x0 l0]; [congruence|]. cbn [head_last] in EH. injection EH as Eh Et. assert (Hh : In hi (x0 :: l0)).
      { rewrite <- Et. apply (last_In (x0 :: l0)). exact NE. }
      apply HLv in Hh. apply HLv in Hx. lia. }
    assert (EX : xlbs nu_min nu_max v_min v_max lo hi = flat_map (fun L => xlbs nu_min nu_max v_min v_max L L) Lv).
    { apply xlbs_complete; try assumption. intros L HLL HS. apply HLv. split; [lia|exact HS]. }
    assert (EFD : fs_dim nu_min nu_max v_min v_max Lv = Ok (zlen (xlbs nu_min nu_max v_min v_max lo hi))).
    { unfold fs_dim. rewrite dims_ok by assumption. cbn [bind]. rewrite EX, zlen_flat_map. reflexivity. }
    destruct (C42_arrays nu_min nu_max v_min v_max Lv fs0 _ (known junk r) Hn Hv ND NN EF EFD) as (start & dim & HA & HD);
      [unfold known; cbn [nrows]; lia|unfold known; cbn [ncols]; lia|].
    exists start, dim. auto.
  Qed.

  Lemma fit_rates_ok trans Lv s r s' o : fit_rates trans Lv s = (r, s', o) ->
    o = [] /\
    (r = Ok tt -> exists block mel rate a,
       In (g_rat_L1 s) Lv /\ In (g_rat_L2 s) Lv /\ get_block (fst trans) (snd trans) (g_rat_L2 s) (g_rat_L1 s) = Ok block /\
       np_get block (g_rat_2dx s - 1) (g_rat_1dx s - 1) = Ok mel /\
       g_rat_fun s (g_rat_TRopAM s) (g_rat_L1 s) (g_rat_L2 s) mel = Ok rate /\ (Rabs rate / g_rat_fit s)%R <> 0%R /\
       g_amp_sft_fun s (Rabs rate / g_rat_fit s)%R = Ok a /\ s' = w_amp_sft a (w_rat_sft (Rabs rate / g_rat_fit s) s)).
  Proof.
    unfold fit_rates, pbind, praise, pget, passign, pret. intros E.
    destruct (mem (g_rat_L1 s) Lv) eqn:E1; cbn [negb raise_if] in E; [|injection E as <- <- <-; split; [reflexivity|discriminate]].
    destruct (mem (g_rat_L2 s) Lv) eqn:E2; cbn [negb raise_if] in E; [|injection E as <- <- <-; split; [reflexivity|discriminate]].
    destruct (get_block _ _ _ _) as [block|] eqn:E3; [|injection E as <- <- <-; split; [reflexivity|discriminate]].
    destruct (np_get block _ _) as [mel|] eqn:E4; [|injection E as <- <- <-; split; [reflexivity|discriminate]].
    destruct (g_rat_fun s _ _ _ mel) as [rate|] eqn:E5; [|injection E as <- <- <-; split; [reflexivity|discriminate]].
    destruct (Req_EM_T _ _) as [|NZ]; [injection E as <- <- <-; split; [reflexivity|discriminate]|].
    destruct (g_amp_sft_fun s _) as [a|] eqn:E6; [|injection E as <- <- <-; split; [reflexivity|discriminate]].
    injection E as <- <- <-. split; [reflexivity|]. intros _. exists block, mel, rate, a. apply mem_In in E1, E2. auto 9.
  Qed.

  Lemma np_get_ok {A} (m : mat A) i j x : 0 <= i -> 0 <= j -> np_get m i j = Ok x -> i < nrows m /\ j < ncols m /\ x = ent m i j.
  Proof.
    intros Hi Hj. unfold np_get, np_index. replace (i <? 0) with false by lia. replace (j <? 0) with false by lia. replace (0 <=? i) with true by lia. replace (0 <=? j) with true by lia.
    cbn [andb]. destruct (i <? nrows m) eqn:E1; [|discriminate]. cbn [bind]. destruct (j <? ncols m) eqn:E2; [|discriminate]. cbn [bind]. intros E. injection E as <-. split; [lia|]. split; [lia|reflexivity].
  Qed.

  (** A line of the display of a list is on the display of any longer list. *)
  Lemma pmap_part {A} (f : A -> prog unit) l s s' o x : (forall y, keeps (f y)) -> pmap f l s = (Ok tt, s', o) -> In x l ->
    exists o', f x s = (Ok tt, s, o') /\ incl o' o.
  Proof.
    intros K. revert o. induction l as [|y l IH]; intros o E Hin; [destruct Hin|]. cbn [pmap] in E.
    apply pbind_inv in E. destruct E as [(u & s1 & o1 & o2 & E1 & E & ->) | (e & _ & X)]; [|discriminate].
    pose proof (keeps_run _ _ _ _ _ (K y) E1) as ->. destruct u. destruct Hin as [<- | Hin].
    - exists o1. split; [exact E1|]. apply incl_appl, incl_refl.
    - destruct (IH _ E Hin) as (o' & F & G). exists o'. split; [exact F|]. now apply incl_appr.
  Qed.

  (** After a run that fitted the rates: the two scale factors, and the reference
      transition, whose rate is positive, appears with exactly the fit value. *)
  Theorem C40_adapt_rate : forall fit_eig fit_rat L_min L_max s ev tr Lv s' o,
    good_shapes ->
    ACM_ScaleOrAdapt flt RepX eigh inv junk ham_op anorm lambda_base nu_min nu_max v_min v_max fit_eig fit_rat L_min L_max s = (Ok (ev, tr, Lv), s', o) ->
    0 < fit_rat -> g_rat_lst s <> [] \/ g_amp_lst s <> [] -> 1 <= g_rat_1dx s -> 1 <= g_rat_2dx s -> g_rat_fit s <> 0%R ->
    let L1 := g_rat_L1 s in let L2 := g_rat_L2 s in let n1 := g_rat_1dx s in let n2 := g_rat_2dx s in
    exists M start dim rate,
      tr = Some M /\ fs_Lvals (snd M) = Lv /\ array_blocks M start dim /\
      (forall L, In L Lv -> dimXspace nu_min nu_max v_min v_max L None = Ok (dim L)) /\
      In L1 Lv /\ In L2 Lv /\ n1 <= dim L1 /\ n2 <= dim L2 /\
      g_rat_fun s (g_rat_TRopAM s) L1 L2 (element M start L1 n1 L2 n2) = Ok rate /\
      g_rat_sft s' = (Rabs rate / g_rat_fit s)%R /\ g_rat_sft s' <> 0%R /\ (Rabs rate / g_rat_sft s')%R = g_rat_fit s /\
      g_amp_sft_fun s (g_rat_sft s') = Ok (g_amp_sft s') /\
      (forall pre mid post, In [L1; L2; n1; n2] (g_rat_lst s) -> plain_formats s (g_rat_format s) pre mid post -> (0 <= rate)%R ->
         In (value_line flt s pre mid post L1 n1 L2 n2 (g_rat_fit s)) o).
  Proof.
    intros fe fr L_min L_max s ev tr Lv s' o GS E Hfr Hl H1 H2 Hfit L1 L2 n1 n2.
    pose proof (C40_only_scale_factors fe fr L_min L_max s) as (aa & bb & cc & RS). rewrite E in RS. cbn [fst snd] in RS.
    change (run fe fr L_min L_max s = (Ok (ev, tr, Lv), s', o)) in E. rewrite run_stages in E.
    apply pbind_inv in E. destruct E as [(x & s0 & o0 & o1 & E0 & E & ->) | (e & _ & X)]; [|discriminate].
    unfold praise in E0. injection E0 as E0 <- <-. destruct x as [[ev0 ebs] Lv0].
    apply bind_ok in E0. destruct E0 as ([] & EC & ED).
    apply pbind_inv in E. destruct E as [(u & s1 & o1' & o2 & E1 & E & ->) | (e & _ & X)]; [|discriminate].
    apply pbind_inv in E. destruct E as [(tr0 & s2 & o3 & o4 & E2 & E & ->) | (e & _ & X)]; [|discriminate].
    unfold pret in E. injection E as -> -> -> -> <-.
    assert (S1 : exists c, s1 = w_eig_sft c s).
    { unfold eig_stage in E1. destruct (0 <? g_eig_num s); [|injection E1 as <- <- <-; exists (g_eig_sft s); now destruct s].
      apply pbind_inv in E1. destruct E1 as [(u1 & s3 & o5 & o6 & E3 & E1 & ->) | (e & _ & X)]; [|discriminate].
      apply pbind_inv in E1. destruct E1 as [(u2 & s4 & o7 & o8 & E4 & E1 & ->) | (e & _ & X)]; [|destruct u; discriminate].
      injection E1 as <- -> <-. apply keeps_run in E4; [|apply keeps_Show_Eigs]. subst s1.
      destruct (0 <? fe); [|injection E3 as <- <-; exists (g_eig_sft s); now destruct s].
      apply fit_eigenvalues_ok in E3. destruct E3 as (-> & E3). destruct u1. destruct (E3 eq_refl) as (low & vals & x & _ & _ & _ & _ & -> & _). eauto. }
    destruct S1 as (c & ->). unfold rat_stage in E2.
    replace ((0 <? zlen (g_rat_lst s)) || (0 <? zlen (g_amp_lst s))) with true in E2
      by (unfold zlen; destruct Hl; [destruct (g_rat_lst s)|destruct (g_amp_lst s)]; try congruence; cbn [length]; lia).
    apply pbind_inv in E2. destruct E2 as [([m fs] & s3 & o5 & o6 & E3 & E2 & ->) | (e & _ & X)]; [|discriminate].
    unfold praise in E3. injection E3 as EA <- <-. cbv zeta in E2. replace (0 <? fr) with true in E2 by lia.
    apply pbind_inv in E2. destruct E2 as [(u1 & s4 & o7 & o8 & E4 & E2 & ->) | (e & _ & X)]; [|discriminate].
    apply pbind_inv in E2. destruct E2 as [(u2 & s5 & o9 & o10 & E5 & E2 & ->) | (e & _ & X)]; [|discriminate].
    apply pbind_inv in E2. destruct E2 as [(u3 & s6 & o11 & o12 & E6 & E2 & ->) | (e & _ & X)]; [|discriminate].
    unfold pret in E2. injection E2 as <- E2 <-. subst s6. pose proof (keeps_run _ _ _ _ _ (keeps_Show_Amps _ _ _ _) E6) as E7. subst s5.
    pose proof (keeps_run _ _ _ _ _ (keeps_Show_Rats _ _ _ _) E5) as E7. subst s4. destruct u1, u2, u3.
    apply fit_rates_ok in E4. destruct E4 as (-> & E4). destruct (E4 eq_refl) as (block & mel & rate & a & I1 & I2 & EB & EM & ER & NZ & EAm & ES). clear E4.
    destruct (amp_stage_blocks s L_min L_max ev ebs Lv m fs GS ED EA) as (EL & Sq & start & dim & HA & HD).
    assert (I1' : In L1 Lv) by (destruct s; exact I1). assert (I2' : In L2 Lv) by (destruct s; exact I2).
    assert (EB' : get_block (known junk m) fs L2 L1 = Ok block) by (destruct s; exact EB).
    assert (EM' : np_get block (n2 - 1) (n1 - 1) = Ok mel) by (destruct s; exact EM).
    assert (ER' : g_rat_fun s (g_rat_TRopAM s) L1 L2 mel = Ok rate) by (destruct s; exact ER).
    assert (NZ' : (Rabs rate / g_rat_fit s)%R <> 0%R) by (destruct s; exact NZ).
    assert (EAm' : g_amp_sft_fun s (Rabs rate / g_rat_fit s)%R = Ok a) by (destruct s; exact EAm).
    assert (ESr : g_rat_sft s' = (Rabs rate / g_rat_fit s)%R) by (rewrite ES; destruct s; reflexivity).
    assert (ESa : g_amp_sft s' = a) by (rewrite ES; destruct s; reflexivity).
    clear I1 I2 EB EM ER NZ EAm.
    pose proof (block_val (known junk m, fs) start dim HA L1 L2) as BV. cbn [fst snd] in BV. rewrite EL in BV.
    rewrite (BV I1' I2') in EB'. injection EB' as <-.
    apply np_get_ok in EM'; [|subst n2; lia|subst n1; lia]. cbn [nrows ncols ent fst snd] in EM'. destruct EM' as (B2 & B1 & EM).
    assert (EM' : mel = element (known junk m, fs) start L1 n1 L2 n2) by (rewrite EM; unfold element; rewrite <- !Z.add_sub_assoc; reflexivity).
    exists (known junk m, fs), start, dim, rate.
    split; [reflexivity|]. split; [exact EL|]. split; [exact HA|]. split; [exact HD|]. split; [exact I1'|]. split; [exact I2'|].
    split; [lia|]. split; [lia|]. split; [now rewrite <- EM'|]. split; [exact ESr|]. split; [rewrite ESr; exact NZ'|]. split.
    { rewrite ESr. field. split; [exact Hfit|]. intros Z. apply NZ'. rewrite Z. unfold Rdiv. ring. }
    split; [rewrite ESr, ESa; exact EAm'|].
    intros pre mid post Hq HF Hpos.
    assert (HF' : plain_formats s' (g_rat_format s') pre mid post) by (rewrite RS; destruct s; exact HF).
    cbn [app]. apply in_or_app. right. rewrite app_nil_r. apply in_or_app. left.
    unfold Show_Rats in E5. cbn [default] in E5. unfold pbind at 1, pget at 1 in E5.
    assert (NR : 0 < nrows (known junk m)).
    { assert (I1'' : In L1 (fs_Lvals (snd (known junk m, fs)))) by (cbn [snd]; rewrite EL; exact I1').
      destruct (HA L1 I1'') as (_ & Q1 & Q2 & Q3 & _). cbn [fst] in Q3. lia. }
    rewrite (Show_Mels_eval flt s' (g_rat_format s') pre mid post HF') in E5; [|intros Z; rewrite Z in Hq; destruct Hq|exact NR].
    match type of E5 with context [pmap ?f ?l ?st] => destruct (pmap f l st) as [[r9 s9] o9'] eqn:EP end.
    injection E5 as -> -> <-. right.
    destruct (pmap_part _ _ _ _ _ _ (fun y => keeps_designator flt s' _ _ _ _ _ _ y) EP Hq) as (o' & F & G).
    unfold show_designator in F. replace (5 <? _) with false in F by reflexivity.
    pose proof (Dig_valid _ _ _ _ _ _ _ _ _ _ ED) as (Hn & Hv & HLL).
    destruct (C38_Lvals _ _ _ _ _ _ _ _ _ _ _ _ _ ED) as (_ & HLv & _).
    pose proof (proj1 (HLv _) I1') as (Z1 & _). pose proof (proj1 (HLv _) I2') as (Z2 & _).
    replace (L1 <? 0) with false in F by lia. replace (L2 <? 0) with false in F by lia. cbn [orb] in F.
    rewrite (mel_eval flt s' (known junk m, fs) start dim) in F by (try exact HA; cbn [snd]; rewrite EL; assumption).
    replace ((0 <? n1) && (n1 <=? dim L1) && (0 <? n2) && (n2 <=? dim L2)) with true in F by lia.
    rewrite <- EM' in F. assert (ER9 : g_rat_fun s' (g_rat_TRopAM s') L1 L2 mel = Ok rate) by (rewrite RS; destruct s; exact ER').
    rewrite ER9 in F.
    match type of F with context [py_format flt ?f ?x] => destruct (py_format flt f x) as [line|] eqn:EF end; [|discriminate].
    injection F as <-. apply G. left.
    erewrite f1_line in EF by exact HF'. injection EF as <-. unfold value_line, number_spec.
    replace (rate / g_rat_sft s')%R with (g_rat_fit s).
    - rewrite RS. destruct s; reflexivity.
    - rewrite ESr. rewrite Rabs_pos_eq in * by exact Hpos. field. split; [exact Hfit|]. intros Z. apply NZ'. rewrite Z. unfold Rdiv. ring.
  Qed.

  Lemma checks_ok fe fr s L_min L_max :
    0 <= fe -> 0 <= fr -> 0 <= nu_min <= nu_max -> 0 <= v_min <= v_max -> 0 <= L_min <= L_top L_min L_max ->
    (0 < fe -> 0 < g_eig_num s -> available (g_eig_L s) (g_eig_idx s) L_min L_max) ->
    (0 < fr -> g_rat_lst s <> [] -> available (g_rat_L1 s) (g_rat_1dx s) L_min L_max /\ available (g_rat_L2 s) (g_rat_2dx s) L_min L_max) ->
    checks fe fr s L_min L_max = Ok tt.
  Proof.
    intros H1 H2 H3 H4 H5 H6 H7. unfold checks. rewrite !require_nonnegint_ok by lia. rewrite !require_range_ok by lia. cbn [bind].
    assert (CR : forall L idx, available L idx L_min L_max -> check_reference nu_min nu_max v_min v_max L idx L_min (L_top L_min L_max) = Ok tt).
    { intros L idx (HL & d & Hd & Hi). unfold check_reference. replace ((L <? L_min) || (L_top L_min L_max <? L)) with false by lia. cbn [raise_if bind].
      rewrite Hd. cbn [bind]. replace (d <? idx) with false by lia. reflexivity. }
    assert (C1 : (if (0 <? fe) && (0 <? g_eig_num s) then check_reference nu_min nu_max v_min v_max (g_eig_L s) (g_eig_idx s) L_min (L_top L_min L_max) else Ok tt) = Ok tt).
    { destruct ((0 <? fe) && (0 <? g_eig_num s)) eqn:E; [|reflexivity]. apply CR, H6; lia. }
    rewrite C1. cbn [bind]. destruct ((0 <? fr) && (0 <? zlen (g_rat_lst s))) eqn:E; [|reflexivity].
    destruct H7 as (A1 & A2); [lia|intros Z; rewrite Z in E; cbn in E; lia|]. rewrite !CR by assumption. reflexivity.
  Qed.

  Lemma find_combine (Lv : list Z) (ev : list (list R)) L vals : NoDup Lv -> In (L, vals) (combine Lv ev) ->
    find (fun '(L', _) => L' =? L) (combine Lv ev) = Some (L, vals).
  Proof.
    revert ev. induction Lv as [|l Lv IH]; intros [|v ev] ND H; try destruct H. cbn [combine find].
    - injection H as -> ->. now rewrite Z.eqb_refl.
    - cbn [combine find]. inversion ND as [|? ? NI ND']; subst. destruct (l =? L) eqn:E; [|now apply IH].
      exfalso. apply NI. assert (l = L) by lia. subst l. eapply in_combine_l. exact H.
  Qed.

  (** The run that fails because the reference state is the lowest one has
      already lost the scale factor. *)
  Theorem C40_adapt_lowest : forall fit_eig fit_rat L_min L_max s ev ebs Lv vals x,
    DigXspace (RepX s ham_op anorm lambda_base nu_min nu_max v_min v_max) (Eigenfiddle eigh) (Op_Tame ham_op)
      nu_min nu_max v_min v_max L_min L_max = Ok (ev, ebs, Lv) ->
    0 < fit_eig -> 0 <= fit_rat -> 0 < g_eig_num s -> 1 <= g_eig_idx s -> g_eig_rel s = true -> g_eig_fit s <> 0%R ->
    available (g_eig_L s) (g_eig_idx s) L_min L_max ->
    (g_rat_lst s = [] \/ available (g_rat_L1 s) (g_rat_1dx s) L_min L_max /\ available (g_rat_L2 s) (g_rat_2dx s) L_min L_max) ->
    In (g_eig_L s, vals) (combine Lv ev) -> nth_error vals (Z.to_nat (g_eig_idx s - 1)) = Some x -> min_head ev = Ok x ->
    ACM_ScaleOrAdapt flt RepX eigh inv junk ham_op anorm lambda_base nu_min nu_max v_min v_max fit_eig fit_rat L_min L_max s
    = (Raise ValueError, w_eig_sft 0 s, []).
  Proof.
    intros fe fr L_min L_max s ev ebs Lv vals x ED Hfe Hfr Hnum Hidx Hrel Hfit HA HR Hin Hx Hm.
    pose proof (Dig_valid _ _ _ _ _ _ _ _ _ _ ED) as (Hn & Hv & HLL).
    destruct (C38_Lvals _ _ _ _ _ _ _ _ _ _ _ _ _ ED) as (Hs & _).
    assert (ND : NoDup Lv) by (eapply StronglySorted_NoDup; [|exact Hs]; intros; lia).
    change (run fe fr L_min L_max s = (Raise ValueError, w_eig_sft 0 s, [])). rewrite run_stages.
    rewrite checks_ok; try assumption; try lia; [|intros; assumption|intros _ N; destruct HR; [contradiction|assumption]].
    cbn [bind]. fold (dig s L_min L_max) in ED. rewrite ED. rewrite pbind_ok. unfold eig_stage.
    replace (0 <? g_eig_num s) with true by lia. replace (0 <? fe) with true by lia.
    assert (EF : fit_eigenvalues ev Lv s = (Raise ValueError, w_eig_sft 0 s, [])).
    { unfold fit_eigenvalues, pbind, praise, pget, passign, pret. rewrite Hrel, Hm.
      assert (I : mem (g_eig_L s) Lv = true) by (apply mem_In; eapply in_combine_l; exact Hin). rewrite I. cbn [negb raise_if].
      rewrite (find_combine Lv ev (g_eig_L s) vals ND Hin).
      unfold py_get. replace (g_eig_idx s - 1 <? 0) with false by lia. replace (g_eig_idx s - 1 <? 0) with false by lia. rewrite Hx.
      replace ((x - x) / g_eig_fit s)%R with 0%R by (field; exact Hfit). destruct (Req_EM_T 0 0); [reflexivity|contradiction]. }
    unfold pbind at 1 2. rewrite EF. reflexivity.
  Qed.

  (** ** C41 *)

  (** A reference state that is not available is rejected before anything is
      computed, changed or printed. *)
  Lemma not_available L idx L_min L_max : 0 <= nu_min <= nu_max -> 0 <= v_min <= v_max -> 0 <= L_min <= L_top L_min L_max ->
    ~ available L idx L_min L_max -> check_reference nu_min nu_max v_min v_max L idx L_min (L_top L_min L_max) = Raise ValueError.
  Proof.
    intros H1 H2 H3 N. unfold check_reference. destruct ((L <? L_min) || (L_top L_min L_max <? L)) eqn:E; [reflexivity|]. cbn [raise_if bind].
    rewrite dimXspace_ok by (cbn; lia). cbn [bind]. destruct (_ <? idx) eqn:E2; [reflexivity|]. exfalso. apply N. split; [lia|].
    eexists. split; [apply dimXspace_ok; cbn; lia|]. lia.
  Qed.

  Lemma check_reference_cases L idx L_min L_max : 0 <= nu_min <= nu_max -> 0 <= v_min <= v_max -> 0 <= L_min <= L_top L_min L_max ->
    check_reference nu_min nu_max v_min v_max L idx L_min (L_top L_min L_max) = Raise ValueError \/
    check_reference nu_min nu_max v_min v_max L idx L_min (L_top L_min L_max) = Ok tt /\ available L idx L_min L_max.
  Proof.
    intros H1 H2 H3. unfold check_reference. destruct ((L <? L_min) || (L_top L_min L_max <? L)) eqn:E; [now left|]. cbn [raise_if bind].
    rewrite dimXspace_ok by (cbn; lia). cbn [bind]. destruct (_ <? idx) eqn:E2; [now left|]. right. split; [reflexivity|]. split; [lia|].
    eexists. split; [apply dimXspace_ok; cbn; lia|]. lia.
  Qed.

  Lemma checks_cases fe fr s L_min L_max :
    checks fe fr s L_min L_max = Raise ValueError \/
    (checks fe fr s L_min L_max = Ok tt /\
     (0 < fe -> 0 < g_eig_num s -> available (g_eig_L s) (g_eig_idx s) L_min L_max) /\
     (0 < fr -> g_rat_lst s <> [] -> available (g_rat_L1 s) (g_rat_1dx s) L_min L_max /\ available (g_rat_L2 s) (g_rat_2dx s) L_min L_max)).
  Proof.
    assert (NC : forall n, require_nonnegint n = Ok tt \/ require_nonnegint n = Raise ValueError)
      by (intros n; unfold require_nonnegint, raise_if; destruct (n <? 0); auto).
    unfold checks. destruct (NC fe) as [-> | ->]; [|now left]. cbn [bind]. destruct (NC fr) as [-> | ->]; [|now left]. cbn [bind].
    destruct (range_cases nu_min nu_max) as [(A1 & ->) | (_ & ->)]; [|now left]. cbn [bind].
    destruct (range_cases v_min v_max) as [(A2 & ->) | (_ & ->)]; [|now left]. cbn [bind].
    destruct (range_cases L_min (L_top L_min L_max)) as [(A3 & ->) | (_ & ->)]; [|now left]. cbn [bind].
    destruct ((0 <? fe) && (0 <? g_eig_num s)) eqn:E1.
    - destruct (check_reference_cases (g_eig_L s) (g_eig_idx s) L_min L_max A1 A2 A3) as [-> | (-> & B1)]; [now left|]. cbn [bind].
      destruct ((0 <? fr) && (0 <? zlen (g_rat_lst s))) eqn:E2.
      + destruct (check_reference_cases (g_rat_L1 s) (g_rat_1dx s) L_min L_max A1 A2 A3) as [-> | (-> & B2)]; [now left|]. cbn [bind].
        destruct (check_reference_cases (g_rat_L2 s) (g_rat_2dx s) L_min L_max A1 A2 A3) as [-> | (-> & B3)]; [now left|]. right. split; [reflexivity|]. split; [intros; exact B1|intros; split; assumption].
      + right. split; [reflexivity|]. split; [intros; exact B1|]. intros H N. exfalso. unfold zlen in E2. destruct (g_rat_lst s); [congruence|]. cbn [length] in E2. lia.
    - cbn [bind]. destruct ((0 <? fr) && (0 <? zlen (g_rat_lst s))) eqn:E2.
      + destruct (check_reference_cases (g_rat_L1 s) (g_rat_1dx s) L_min L_max A1 A2 A3) as [-> | (-> & B2)]; [now left|]. cbn [bind].
        destruct (check_reference_cases (g_rat_L2 s) (g_rat_2dx s) L_min L_max A1 A2 A3) as [-> | (-> & B3)]; [now left|]. right.
        split; [reflexivity|]. split; [intros; lia|auto].
      + right. split; [reflexivity|]. split; [intros; lia|]. intros H N. exfalso. unfold zlen in E2. destruct (g_rat_lst s); [congruence|]. cbn [length] in E2. lia.
  Qed.

  Theorem C41_unavailable : forall fit_eig fit_rat L_min L_max s,
    (0 < fit_eig /\ 0 < g_eig_num s /\ ~ available (g_eig_L s) (g_eig_idx s) L_min L_max) \/
    (0 < fit_rat /\ g_rat_lst s <> [] /\
       (~ available (g_rat_L1 s) (g_rat_1dx s) L_min L_max \/ ~ available (g_rat_L2 s) (g_rat_2dx s) L_min L_max)) ->
    ACM_ScaleOrAdapt flt RepX eigh inv junk ham_op anorm lambda_base nu_min nu_max v_min v_max fit_eig fit_rat L_min L_max s
    = (Raise ValueError, s, []).
  Proof.
    intros fe fr L_min L_max s H. change (run fe fr L_min L_max s = (Raise ValueError, s, [])). rewrite run_stages.
    destruct (checks_cases fe fr s L_min L_max) as [-> | (_ & C1 & C2)]; [reflexivity|]. exfalso.
    destruct H as [(H1 & H2 & H3) | (H1 & H2 & H3)]; [tauto|]. destruct (C2 H1 H2). tauto.
  Qed.

  (** The numbers of eigenvalues. *)
  Lemma Eigenfiddle_shape M vals P : good_shapes -> Eigenfiddle eigh M = Ok (vals, P) -> nrows M = ncols M /\ zlen vals = nrows M /\ nrows P = nrows M /\ ncols P = nrows M.
  Proof.
    intros (_ & GE & _). unfold Eigenfiddle. destruct (nrows M =? ncols M) eqn:Sq; [|discriminate]. cbn [negb raise_if bind]. intros E.
    split; [lia|]. apply GE in E; [|cbn; lia]. exact E.
  Qed.

  Lemma dig_full_some s L_min L_max : Op_Tame ham_op = false -> dig s L_min L_max = dig s L_min (Some (L_top L_min L_max)).
  Proof. intros HT. unfold dig, DigXspace. rewrite HT. now destruct L_max. Qed.

  Lemma dig_lengths s L_min L_max ev ebs Lv : good_shapes -> dig s L_min L_max = Ok (ev, ebs, Lv) ->
    Forall2 (fun L vals => forall d, dimXspace nu_min nu_max v_min v_max L None = Ok d ->
       zlen vals = d + (if negb (Op_Tame ham_op) && existsb (fun L' => L <? L') Lv then 1 else 0)) Lv ev.
  Proof.
    intros GS ED. pose proof GS as (GR & _). destruct (Op_Tame ham_op) eqn:HT; cbn [negb andb].
    - unfold dig in ED. rewrite HT in ED. apply C37_tame_blocks in ED. destruct ED as (L1 & L2 & F).
      assert (G : forall (l : list Z) (e : list (list R)) (b : list (mat R)), length e = length l -> length b = length l ->
        Forall2 (fun L ve => exists M, RepX s ham_op anorm lambda_base nu_min nu_max v_min v_max L None = Ok M /\ Eigenfiddle eigh M = Ok ve) l (combine e b) ->
        Forall2 (fun L vals => forall d, dimXspace nu_min nu_max v_min v_max L None = Ok d -> zlen vals = d + 0) l e).
      { induction l as [|L l IH]; intros [|v e] [|P b] Q1 Q2 FF; try discriminate; [constructor|]. cbn [combine] in FF. inversion FF as [|? ? ? ? (M & EM & EE) FF']; subst.
        constructor; [|apply (IH e b); [now injection Q1|now injection Q2|exact FF']].
        intros d Hd. destruct (GR _ _ _ _ _ _ EM Hd) as (S1 & S2). apply Eigenfiddle_shape in EE; [|exact GS]. lia. }
      apply (G Lv ev ebs); assumption.
    - rewrite (dig_full_some _ _ _ HT) in ED. unfold dig in ED. rewrite HT in ED.
      pose proof (Dig_valid _ _ _ _ _ _ _ _ _ _ ED) as (Hn & Hv & HLL). cbn [L_top] in HLL.
      pose proof (Dig_full_out _ _ _ _ _ _ _ _ _ _ _ ED) as (_ & _ & _ & rep & ER & _). cbn [L_top] in ER.
      assert (EN : dimXspace nu_min nu_max v_min v_max L_min (Some (L_top L_min L_max)) = Ok (zlen (xlbs nu_min nu_max v_min v_max L_min (L_top L_min L_max))))
        by (rewrite dimXspace_ok by (cbn; lia); reflexivity).
      destruct (GR _ _ _ _ _ _ ER EN) as (S1 & S2).
      apply (C37_full_lengths _ _ _ _ _ _ _ _ _ _ _ _ _ _ ED ER EN S1 S2).
      intros M vals P E. apply Eigenfiddle_shape in E; [|exact GS]. lia.
  Qed.

  (** No routine but those of the display raises IndexError. *)
  Definition no_IE {A} (m : res A) : Prop := m <> Raise IndexError.
  Lemma no_IE_bind {A B} (m : res A) (f : A -> res B) : no_IE m -> (forall a, m = Ok a -> no_IE (f a)) -> no_IE (let* x := m in f x).
  Proof. intros H1 H2. destruct m as [a|e]; cbn [bind]; [now apply H2|]. intros E. injection E as ->. now apply H1. Qed.
  Lemma no_IE_ok {A} (a : A) : no_IE (Ok a).
  Proof. discriminate. Qed.

  Definition only_VE {A} (m : prog A) : Prop := forall s e, fst (fst (m s)) = Raise e -> e = ValueError.
  Lemma VE_ok {A} (m : prog A) : (forall s, exists a, fst (fst (m s)) = Ok a) -> only_VE m.
  Proof. intros H s e. destruct (H s) as (a & ->). discriminate. Qed.
  Lemma VE_pret {A} (a : A) : only_VE (pret a).
  Proof. intros s e. discriminate. Qed.
  Lemma VE_print t : only_VE (print t).
  Proof. intros s e. discriminate. Qed.
  Lemma VE_bind {A B} (m : prog A) (f : A -> prog B) : only_VE m -> (forall a, only_VE (f a)) -> only_VE (pbind m f).
  Proof.
    intros H1 H2 s e. unfold pbind. specialize (H1 s). destruct (m s) as [[[a|e'] s1] o1]; cbn [fst] in *.
    - specialize (H2 a s1 e). destruct (f a s1) as [[r s2] o2]. exact H2.
    - intros X. injection X as ->. now apply H1.
  Qed.
  Lemma VE_pmap {A} (f : A -> prog unit) l : (forall x, only_VE (f x)) -> only_VE (pmap f l).
  Proof. intros H. induction l as [|x l IH]; cbn [pmap]; [apply VE_pret|]. apply VE_bind; [apply H|intros _; exact IH]. Qed.
  Lemma VE_range a b : only_VE (praise (require_nonnegint_range a b)).
  Proof. intros s e. destruct (range_cases a b) as [(_ & ->) | (_ & ->)]; cbn; congruence. Qed.
  Lemma VE_Show_Eigs ev Lv n lo hi : only_VE (Show_Eigs flt ev Lv n lo hi).
  Proof.
    unfold Show_Eigs. apply VE_bind; [intros s e; unfold require_nonnegint, raise_if, praise; destruct (_ <? 0); cbn; congruence|intros _].
    destruct (_ || _); [apply VE_pret|]. cbv zeta. destruct (match lo with None => _ | Some _ => _ end) as [[? ?] ?].
    apply VE_bind; [apply VE_range|intros _]. destruct (negb _); [apply VE_pret|]. apply VE_bind; [intros s e; discriminate|intros s]. apply VE_bind.
    - destruct (g_eig_rel s).
      + apply VE_bind; [intros s0 e; unfold praise, min_head; destruct (heads ev); cbn; congruence|intros]. apply VE_bind; [apply VE_print|intros; apply VE_pret].
      + apply VE_bind; [apply VE_print|intros; apply VE_pret].
    - intros low. apply VE_bind; [|intros; apply VE_pret]. apply VE_pmap. intros [L vals]. destruct (_ && _); [apply VE_print|apply VE_pret].
  Qed.

  Definition numerics_no_IE (s : settings) : Prop :=
    (forall op lo hi, no_IE (RepX s op anorm lambda_base nu_min nu_max v_min v_max lo hi)) /\
    (forall M, no_IE (eigh M)) /\ (forall M, no_IE (inv M)) /\
    (forall am L1 L2 x, no_IE (g_rat_fun s am L1 L2 x)) /\ (forall x, no_IE (g_amp_sft_fun s x)).

  Lemma no_IE_Eigenfiddle s M : numerics_no_IE s -> no_IE (Eigenfiddle eigh M).
  Proof. intros (_ & GE & _). unfold Eigenfiddle, raise_if. destruct (negb _); [discriminate|]. apply GE. Qed.

  Lemma no_IE_dig s L_min L_max : numerics_no_IE s -> no_IE (dig s L_min L_max).
  Proof.
    intros GI. pose proof GI as (GR & _). unfold dig, DigXspace. fold (L_top L_min L_max).
    destruct (range_cases nu_min nu_max) as [(A1 & ->) | (_ & ->)]; [|discriminate]. cbn [bind].
    destruct (range_cases v_min v_max) as [(A2 & ->) | (_ & ->)]; [|discriminate]. cbn [bind].
    destruct (range_cases L_min (L_top L_min L_max)) as [(A3 & ->) | (_ & ->)]; [|discriminate]. cbn [bind].
    assert (NN : forall L, In L (py_range L_min (L_top L_min L_max + 1)) -> 0 <= L) by (intros L H; apply py_range_In in H; lia).
    set (Ls0 := py_range L_min (L_top L_min L_max + 1)) in *. clearbody Ls0. destruct (Op_Tame ham_op).
    - generalize (@nil (list R), @nil (mat R), @nil Z). revert NN. induction Ls0 as [|L Ls IH]; intros NN [[a b] c]; cbn [dig_tame]; [discriminate|].
      rewrite nsph_model by auto with datatypes. cbn [bind]. destruct (0 <? nsph v_min v_max L); [|apply IH; auto with datatypes].
      apply no_IE_bind; [apply GR|intros M _]. apply no_IE_bind; [eapply no_IE_Eigenfiddle; exact GI|intros [vals bases] _]. apply IH; auto with datatypes.
    - apply no_IE_bind; [apply GR|intros rep _]. generalize 1. generalize (@nil (list R), @nil (mat R), @nil Z). revert NN.
      induction Ls0 as [|L Ls IH]; intros NN [[a b] c] st; cbn [dig_full]; [discriminate|].
      rewrite nsph_model by auto with datatypes. cbn [bind]. destruct (0 <? nsph v_min v_max L); [|apply IH; auto with datatypes].
      apply no_IE_bind; [eapply no_IE_Eigenfiddle; exact GI|intros [vals bases] _]. apply IH; auto with datatypes.
  Qed.

  Lemma no_IE_block_for fs L : no_IE (get_block_for_L fs L).
  Proof. unfold get_block_for_L. destruct (dict_get _ _); discriminate. Qed.
  Lemma no_IE_get_block {A} (m : mat A) fs L1 L2 : no_IE (get_block m fs L1 L2).
  Proof. unfold get_block. apply no_IE_bind; [apply no_IE_block_for|intros [? ?] _]. apply no_IE_bind; [apply no_IE_block_for|intros [? ?] _]. discriminate. Qed.
  Lemma no_IE_matmul A B : no_IE (matmul A B).
  Proof. unfold matmul. destruct (_ =? _); discriminate. Qed.

  Lemma no_IE_amp s ebs Lv : numerics_no_IE s -> (Lv <> [] -> validate_Lvals Lv = Ok tt) -> (Lv = [] -> validate_Lvals Lv = Raise ValueError) ->
    (forall L, In L Lv -> 0 <= L) -> no_IE (amp_stage s ebs Lv).
  Proof.
    intros (GR & _ & GV & _) V1 V2 NN. unfold amp_stage, AmpXspeig. destruct Lv as [|L0 Lv0] eqn:EL; [rewrite V2 by reflexivity; discriminate|].
    rewrite V1 by discriminate. cbn [bind]. apply no_IE_bind.
    { unfold LBlockFullSpace_init. destruct (range_cases nu_min nu_max) as [(A1 & ->) | (_ & ->)]; [|discriminate]. cbn [bind].
      destruct (range_cases v_min v_max) as [(A2 & ->) | (_ & ->)]; [|discriminate]. cbn [bind]. rewrite mk_blocks_ok by assumption. discriminate. }
    intros fs _. cbn [head_last bind]. apply no_IE_bind; [apply GR|intros T _]. unfold LBlockNDFloatArray_init, raise_if.
    cbn [np_empty nrows ncols]. destruct (nrows T =? ncols T); cbn [negb bind]; [|discriminate]. apply no_IE_bind.
    { induction ebs as [|e ebs IH]; cbn [mapM]; [discriminate|]. apply no_IE_bind; [apply GV|intros ? _]. apply no_IE_bind; [exact IH|intros ? _; discriminate]. }
    intros invs _. apply no_IE_bind; [|intros ? _; discriminate].
    assert (NC : forall P L cols r, no_IE (amp_cols fs T P L cols r)).
    { intros P L cols. induction cols as [|[Q Lc] cols IH]; intros r; cbn [amp_cols]; [discriminate|].
      apply no_IE_bind; [apply no_IE_get_block|intros ? _]. apply no_IE_bind; [apply no_IE_matmul|intros ? _]. apply no_IE_bind; [apply no_IE_matmul|intros ? _].
      apply no_IE_bind; [|intros ? _; apply IH]. unfold set_block. apply no_IE_bind; [apply no_IE_block_for|intros [? ?] _]. apply no_IE_bind; [apply no_IE_block_for|intros [? ?] _].
      unfold slice_set. destruct (_ && _); discriminate. }
    match goal with |- no_IE (amp_rows fs T ?c ?rows ?r) => generalize c as cs; generalize r; generalize rows end.
    intros rows. induction rows as [|[Q Lr] rows IH]; intros r cs; cbn [amp_rows]; [discriminate|]. apply no_IE_bind; [apply NC|intros ? _; apply IH].
  Qed.

  Lemma py_get_in {A} (l : list A) i : 0 <= i < zlen l -> exists x, py_get l i = Ok x.
  Proof.
    intros H. unfold py_get. replace (i <? 0) with false by lia. replace (i <? 0) with false by lia.
    destruct (nth_error l (Z.to_nat i)) as [x|] eqn:E; [eauto|]. apply nth_error_None in E. unfold zlen in H. lia.
  Qed.

  (** The checks guarantee that the reference states can be looked up: an
      IndexError can only come from the display of the requested lists. *)
  Theorem C41_no_index_error : forall fit_eig fit_rat L_min L_max s s' o,
    good_shapes -> numerics_no_IE s ->
    1 <= g_eig_idx s -> 1 <= g_rat_1dx s -> 1 <= g_rat_2dx s ->
    (g_rat_lst s <> [] \/ g_amp_lst s = [] \/ fit_rat = 0) ->
    ACM_ScaleOrAdapt flt RepX eigh inv junk ham_op anorm lambda_base nu_min nu_max v_min v_max fit_eig fit_rat L_min L_max s = (Raise IndexError, s', o) ->
    exists M start dim o', array_blocks M start dim /\
      (Show_Rats flt M (Some (g_rat_lst s)) (Some (g_rat_num s)) s' = (Raise IndexError, s', o') \/
       Show_Amps flt M (Some (g_amp_lst s)) (Some (g_amp_num s)) s' = (Raise IndexError, s', o')).
  Proof.
    intros fe fr L_min L_max s s' o GS GI Hi1 Hi2 Hi3 Hl E.
    change (run fe fr L_min L_max s = (Raise IndexError, s', o)) in E. rewrite run_stages in E.
    apply pbind_inv in E. destruct E as [(x & s0 & o0 & o1 & E0 & E & ->) | (e & E & X)].
    2: { exfalso. injection X as <-. unfold praise in E. injection E as E _ _. revert E. apply no_IE_bind; [|intros _ _; now apply no_IE_dig].
         destruct (checks_cases fe fr s L_min L_max) as [-> | (-> & _)]; discriminate. }
    unfold praise in E0. injection E0 as E0 <- <-. destruct x as [[ev ebs] Lv].
    apply bind_ok in E0. destruct E0 as ([] & EC & ED).
    destruct (checks_cases fe fr s L_min L_max) as [Z | (_ & C1 & C2)]; [congruence|].
    pose proof (Dig_valid _ _ _ _ _ _ _ _ _ _ ED) as (Hn & Hv & HLL).
    destruct (C38_Lvals _ _ _ _ _ _ _ _ _ _ _ _ _ ED) as (Hs & HLv & LE & _ & V1 & V2).
    assert (ND : NoDup Lv) by (eapply StronglySorted_NoDup; [|exact Hs]; intros; lia).
    assert (NN : forall L, In L Lv -> 0 <= L) by (intros L H; apply HLv in H; lia).
    pose proof (dig_lengths _ _ _ _ _ _ GS ED) as HD.
    apply pbind_inv in E. destruct E as [(u & s1 & o1' & o2 & E1 & E & ->) | (e & E & X)].
    - apply pbind_inv in E. destruct E as [(tr0 & s2 & o3 & o4 & E2 & E & ->) | (e & E & X)]; [discriminate|]. injection X as <-.
      assert (S1 : exists c, s1 = w_eig_sft c s).
      { unfold eig_stage in E1. destruct (0 <? g_eig_num s); [|injection E1 as <- <- <-; exists (g_eig_sft s); now destruct s].
        apply pbind_inv in E1. destruct E1 as [(u1 & s3 & o5 & o6 & E3 & E1 & ->) | (e & _ & X)]; [|discriminate].
        apply pbind_inv in E1. destruct E1 as [(u2 & s4 & o7 & o8 & E4 & E1 & ->) | (e & _ & X)]; [|destruct u; discriminate].
        injection E1 as <- -> <-. apply keeps_run in E4; [|apply keeps_Show_Eigs]. subst s1.
        destruct (0 <? fe); [|injection E3 as <- <-; exists (g_eig_sft s); now destruct s].
        apply fit_eigenvalues_ok in E3. destruct E3 as (-> & E3). destruct u1. destruct (E3 eq_refl) as (low & vals & x & _ & _ & _ & _ & -> & _). eauto. }
      destruct S1 as (c & ->). unfold rat_stage in E. destruct (_ || _) eqn:EL; [|discriminate].
      apply pbind_inv in E. destruct E as [([m fs] & s3 & o5 & o6 & E3 & E2 & ->) | (e & E & X)].
      2: { exfalso. injection X as <-. unfold praise in E. injection E as E _ _. revert E. now apply no_IE_amp. }
      unfold praise in E3. injection E3 as EA <- <-. cbv zeta in E2.
      destruct (amp_stage_blocks s L_min L_max ev ebs Lv m fs GS ED EA) as (EFL & Sq & start & dim & HA & HDm).
      apply pbind_inv in E2. destruct E2 as [(u1 & s4 & o7 & o8 & E4 & E2 & ->) | (e & E & X)].
      + apply pbind_inv in E2. destruct E2 as [(u2 & s5 & o9 & o10 & E5 & E2 & ->) | (e & E & X)].
        * apply pbind_inv in E2. destruct E2 as [(u3 & s6 & o11 & o12 & E6 & E2 & ->) | (e & E & X)]; [discriminate|]. injection X as <-.
          pose proof (keeps_run _ _ _ _ _ (keeps_Show_Amps _ _ _ _) E) as ->. eexists _, _, _, _. split; [exact HA|]. right. exact E.
        * injection X as <-. pose proof (keeps_run _ _ _ _ _ (keeps_Show_Rats _ _ _ _) E) as ->. eexists _, _, _, _. split; [exact HA|]. left. exact E.
      + exfalso. injection X as <-. destruct (0 <? fr) eqn:Efr; [|discriminate].
        assert (AV : available (g_rat_L1 s) (g_rat_1dx s) L_min L_max /\ available (g_rat_L2 s) (g_rat_2dx s) L_min L_max).
        { destruct Hl as [Hl | [Hl | Hl]]; [apply C2; [lia|exact Hl]| |lia].
          apply C2; [lia|]. intros Z. rewrite Z, Hl in EL. discriminate. }
        destruct AV as ((_ & d1 & D1 & B1) & (_ & d2 & D2 & B2)).
        unfold fit_rates, pbind, praise, pget, passign, pret in E.
        replace (g_rat_L1 (w_eig_sft c s)) with (g_rat_L1 s) in E by (now destruct s). replace (g_rat_L2 (w_eig_sft c s)) with (g_rat_L2 s) in E by (now destruct s).
        replace (g_rat_1dx (w_eig_sft c s)) with (g_rat_1dx s) in E by (now destruct s). replace (g_rat_2dx (w_eig_sft c s)) with (g_rat_2dx s) in E by (now destruct s).
        replace (g_rat_fun (w_eig_sft c s)) with (g_rat_fun s) in E by (now destruct s). replace (g_amp_sft_fun (w_eig_sft c s)) with (g_amp_sft_fun s) in E by (now destruct s).
        destruct (mem (g_rat_L1 s) Lv) eqn:M1; cbn [negb raise_if] in E; [|discriminate].
        destruct (mem (g_rat_L2 s) Lv) eqn:M2; cbn [negb raise_if] in E; [|discriminate]. apply mem_In in M1, M2.
        rewrite block_val with (start := start) (dim := dim) in E; [|exact HA|cbn [snd]; rewrite EFL; assumption|cbn [snd]; rewrite EFL; assumption].
        rewrite (HDm _ M1) in D1. injection D1 as <-. rewrite (HDm _ M2) in D2. injection D2 as <-.
        unfold np_get, np_index in E. cbn [nrows ncols] in E.
        replace (g_rat_2dx s - 1 <? 0) with false in E by lia. replace (g_rat_1dx s - 1 <? 0) with false in E by lia.
        replace (0 <=? g_rat_2dx s - 1) with true in E by lia. replace (0 <=? g_rat_1dx s - 1) with true in E by lia.
        replace (g_rat_2dx s - 1 <? dim (g_rat_L2 s)) with true in E by lia. replace (g_rat_1dx s - 1 <? dim (g_rat_L1 s)) with true in E by lia.
        cbn [andb bind] in E. destruct GI as (_ & _ & _ & G4 & G5).
        match type of E with context [g_rat_fun s ?a ?b ?c ?d] => pose proof (G4 a b c d) as G4'; destruct (g_rat_fun s a b c d) as [rate|er] end;
          [|injection E as E _ _; rewrite E in G4'; now apply G4'].
        destruct (Req_EM_T _ _); [discriminate|].
        match type of E with context [g_amp_sft_fun s ?a] => pose proof (G5 a) as G5'; destruct (g_amp_sft_fun s a) as [am|er] end;
          [discriminate|injection E as E _ _; rewrite E in G5'; now apply G5'].
    - exfalso. injection X as <-. unfold eig_stage in E. destruct (0 <? g_eig_num s) eqn:En; [|discriminate].
      apply pbind_inv in E. destruct E as [(u1 & s3 & o5 & o6 & E3 & E1 & ->) | (e & E & X)].
      + apply pbind_inv in E1. destruct E1 as [(u2 & s4 & o7 & o8 & E4 & E1 & ->) | (e & E & X)]; [discriminate|]. injection X as <-.
        pose proof (VE_Show_Eigs ev Lv (Some (g_eig_num s)) None None s3 IndexError) as X. rewrite E in X. discriminate (X eq_refl).
      + injection X as <-. destruct (0 <? fe) eqn:Ef; [|discriminate].
        destruct (C1 ltac:(lia) ltac:(lia)) as (_ & d & Dd & Bd).
        unfold fit_eigenvalues, pbind, praise, pget, passign, pret in E.
        destruct (if g_eig_rel s then min_head ev else Ok 0%R) as [low|er] eqn:Em.
        2: { injection E as -> _ _. destruct (g_eig_rel s); [|discriminate]. unfold min_head in Em. destruct (heads ev); discriminate. }
        destruct (mem (g_eig_L s) Lv) eqn:M1; cbn [negb raise_if] in E; [|discriminate]. apply mem_In in M1.
        assert (EX : exists vals, In (g_eig_L s, vals) (combine Lv ev) /\ d <= zlen vals).
        { clear - M1 HD Dd. assert (G : forall (P : Z -> list R -> Prop) l e, Forall2 P l e -> In (g_eig_L s) l -> exists v, In (g_eig_L s, v) (combine l e) /\ P (g_eig_L s) v).
          { intros P l e F. induction F as [|a b l e Pab F IH]; intros []; [subst; exists b; split; [now left|exact Pab]|]. destruct IH as (v & Q1 & Q2); [assumption|]. exists v. split; [now right|exact Q2]. }
          destruct (G _ _ _ HD M1) as (v & Q1 & Q2). exists v. split; [exact Q1|]. rewrite (Q2 d Dd). destruct (_ && _); lia. }
        destruct EX as (vals & Hv1 & Hv2). rewrite (find_combine Lv ev _ vals ND Hv1) in E.
        destruct (py_get_in vals (g_eig_idx s - 1)) as (x & Hx); [lia|]. rewrite Hx in E. destruct (Req_EM_T _ _); discriminate.
  Qed.

  (** With amplitudes but no rates requested, the reference transition is not
      checked, and an index beyond the last state raises IndexError. *)
  Theorem C41_index_error : forall fit_eig fit_rat L_min L_max s ev ebs Lv m fs d1 d2,
    good_shapes ->
    DigXspace (RepX s ham_op anorm lambda_base nu_min nu_max v_min v_max) (Eigenfiddle eigh) (Op_Tame ham_op)
      nu_min nu_max v_min v_max L_min L_max = Ok (ev, ebs, Lv) ->
    AmpXspeig (fun lo hi => RepX s (g_rat_TRop s) anorm lambda_base nu_min nu_max v_min v_max lo (Some hi)) inv ebs nu_min nu_max v_min v_max Lv = Ok (m, fs) ->
    0 <= fit_eig -> 0 < fit_rat -> g_eig_num s = 0 -> g_rat_lst s = [] -> g_amp_lst s <> [] ->
    In (g_rat_L1 s) Lv -> In (g_rat_L2 s) Lv ->
    dimXspace nu_min nu_max v_min v_max (g_rat_L1 s) None = Ok d1 -> dimXspace nu_min nu_max v_min v_max (g_rat_L2 s) None = Ok d2 ->
    1 <= g_rat_1dx s -> 1 <= g_rat_2dx s -> d1 < g_rat_1dx s \/ d2 < g_rat_2dx s ->
    ACM_ScaleOrAdapt flt RepX eigh inv junk ham_op anorm lambda_base nu_min nu_max v_min v_max fit_eig fit_rat L_min L_max s
    = (Raise IndexError, s, []).
  Proof.
    intros fe fr L_min L_max s ev ebs Lv m fs d1 d2 GS ED EA Hfe Hfr Hnum Hrl Hal I1 I2 D1 D2 H1 H2 HB.
    pose proof (Dig_valid _ _ _ _ _ _ _ _ _ _ ED) as (Hn & Hv & HLL).
    change (run fe fr L_min L_max s = (Raise IndexError, s, [])). rewrite run_stages.
    rewrite checks_ok; try assumption; try lia; [|intros; contradiction].
    cbn [bind]. fold (dig s L_min L_max) in ED. fold (amp_stage s ebs Lv) in EA. rewrite ED, pbind_ok. unfold eig_stage. replace (0 <? g_eig_num s) with false by lia.
    rewrite (pbind_pret tt (fun _ => _)). unfold rat_stage. rewrite EA, Hrl.
    replace ((0 <? zlen []) || (0 <? zlen (g_amp_lst s))) with true by (unfold zlen; destruct (g_amp_lst s); [congruence|]; cbn [length]; lia).
    destruct (amp_stage_blocks s L_min L_max ev ebs Lv m fs GS ED EA) as (EFL & _ & start & dim & HA & HDm).
    rewrite (HDm _ I1) in D1. injection D1 as <-. rewrite (HDm _ I2) in D2. injection D2 as <-.
    assert (EF : fit_rates (known junk m, fs) Lv s = (Raise IndexError, s, [])).
    { unfold fit_rates, pbind, praise, pget, passign, pret. apply mem_In in I1 as M1. apply mem_In in I2 as M2. rewrite M1, M2. cbn [negb raise_if].
      rewrite block_val with (start := start) (dim := dim); [|exact HA|cbn [snd]; rewrite EFL; assumption|cbn [snd]; rewrite EFL; assumption].
      unfold np_get, np_index. cbn [nrows ncols]. replace (g_rat_2dx s - 1 <? 0) with false by lia. replace (g_rat_1dx s - 1 <? 0) with false by lia.
      replace (0 <=? g_rat_2dx s - 1) with true by lia. replace (0 <=? g_rat_1dx s - 1) with true by lia. cbn [andb].
      destruct (g_rat_2dx s - 1 <? dim (g_rat_L2 s)) eqn:B2; [|reflexivity]. cbn [bind].
      replace (g_rat_1dx s - 1 <? dim (g_rat_L1 s)) with false by lia. reflexivity. }
    unfold pbind, praise. replace (0 <? fr) with true by lia. rewrite EF. reflexivity.
  Qed.

  (** ** C61 *)

  (** A Hamiltonian that couples angular momenta: the eigenbases do not fit the
      blocks of the transition operator. *)
  Lemma amp_full_fails s L_min L_max ev ebs Lv L1 L2 :
    good_shapes -> Op_Tame ham_op = false -> dig s L_min L_max = Ok (ev, ebs, Lv) -> In L1 Lv -> In L2 Lv -> L1 < L2 ->
    (forall x, amp_stage s ebs Lv <> Ok x) /\
    ((forall op lo hi, 0 <= lo <= hi -> exists M, RepX s op anorm lambda_base nu_min nu_max v_min v_max lo (Some hi) = Ok M) ->
     (forall M vals P, eigh M = Ok (vals, P) -> exists Q, inv P = Ok Q) ->
     amp_stage s ebs Lv = Raise ValueError).
  Proof.
    intros GS HT ED H1 H2 Hlt. pose proof (dig_lengths _ _ _ _ _ _ GS ED) as HD. rewrite HT in HD. cbn [negb andb] in HD.
    pose proof GS as (GR & _ & GV).
    pose proof (Dig_valid _ _ _ _ _ _ _ _ _ _ ED) as (Hn & Hv & HLL).
    destruct (C38_Lvals _ _ _ _ _ _ _ _ _ _ _ _ _ ED) as (Hs & HLv & LE & LB & V1 & _).
    pose proof ED as ED'. unfold dig in ED'. rewrite HT in ED'. apply Dig_full_out in ED'. destruct ED' as (_ & _ & _ & rep & _ & F).
    destruct Lv as [|L0 Lv]; [destruct H1|]. destruct ev as [|v0 ev]; [discriminate|]. destruct ebs as [|P0 ebs]; [discriminate|]. cbn [combine] in F.
    assert (FP : forall P, In P (P0 :: ebs) -> exists M vals, eigh M = Ok (vals, P)).
    { change ((v0, P0) :: combine ev ebs) with (combine (v0 :: ev) (P0 :: ebs)) in F. clear - F LE LB. revert F LE LB. generalize (L0 :: Lv), (v0 :: ev), (P0 :: ebs).
      intros l. induction l as [|L l IH]; intros [|v e] [|P b] F Q1 Q2; try discriminate; [intros ? []|]. cbn [combine] in F. inversion F as [|? ? ? ? EE F']; subst.
      intros P' [<- | HP]; [|apply (IH e b); [exact F'|now injection Q1|now injection Q2|exact HP]].
      unfold Eigenfiddle in EE. destruct (raise_if _ _); [|discriminate]. cbn [bind] in EE. eauto. }
    inversion F as [|? ? ? ? EE F']; subst. apply Eigenfiddle_shape in EE; [|exact GS]. destruct EE as (_ & Q1 & Q2 & Q3).
    inversion HD as [|? ? ? ? D0 _]; subst.
    assert (NN : forall L, In L (L0 :: Lv) -> 0 <= L) by (intros L H; apply HLv in H; lia).
    assert (H0 : 0 <= L0) by (apply NN; now left).
    assert (EX : existsb (fun L' => L0 <? L') (L0 :: Lv) = true).
    { apply existsb_exists. exists L2. split; [exact H2|]. inversion Hs as [|? ? _ FA]; subst. rewrite Forall_forall in FA.
      destruct H1 as [<- | H1]; [lia|]. specialize (FA _ H1). lia. }
    rewrite EX in D0.
    assert (ED0 : dimXspace nu_min nu_max v_min v_max L0 None = Ok (w nu_min nu_max v_min v_max L0)) by (rewrite dimXspace_ok by (cbn; lia); reflexivity).
    specialize (D0 _ ED0). set (d0 := w nu_min nu_max v_min v_max L0) in *.
    assert (ND : NoDup (L0 :: Lv)) by (eapply StronglySorted_NoDup; [|exact Hs]; intros; lia).
    unfold amp_stage, AmpXspeig. rewrite V1 by discriminate. cbn [bind]. unfold LBlockFullSpace_init. rewrite !require_range_ok by lia. cbn [bind].
    rewrite mk_blocks_ok by assumption. cbn [bind head_last]. set (hi := last (L0 :: Lv) L0). set (fs := {| fs_nu_min := _ |}).
    assert (Hhi : L0 <= hi <= L_top L_min L_max).
    { assert (Hh : In hi (L0 :: Lv)) by (apply last_In; discriminate). pose proof (sorted_head_last Lv L0 Hs hi Hh). apply HLv in Hh. lia. }
    assert (Hb : forall L, In L (L0 :: Lv) -> L0 <= L <= hi) by (intros L HL; exact (sorted_head_last Lv L0 Hs L HL)). clearbody hi.
    assert (EN : dimXspace nu_min nu_max v_min v_max L0 (Some hi) = Ok (zlen (xlbs nu_min nu_max v_min v_max L0 hi))) by (rewrite dimXspace_ok by (cbn; lia); reflexivity).
    assert (EXL : xlbs nu_min nu_max v_min v_max L0 hi = flat_map (fun L => xlbs nu_min nu_max v_min v_max L L) (L0 :: Lv)).
    { apply xlbs_complete; try assumption.
      intros L HLr HS. apply HLv. split; [|exact HS]. assert (In L0 (L0 :: Lv)) by now left. apply HLv in H. lia. }
    assert (EB : forall T : mat R, nrows T = zlen (xlbs nu_min nu_max v_min v_max L0 hi) -> ncols T = nrows T ->
       exists B, get_block T fs L0 L0 = Ok B /\ nrows B = d0).
    { intros T T1 T2. unfold get_block, get_block_for_L, fs. cbn [fs_blocks].
      rewrite (blocks_get nu_min nu_max v_min v_max (L0 :: Lv) ND 0 [] L0 Lv eq_refl). cbn [map zsum fold_right bind].
      eexists. split; [reflexivity|]. unfold slice. cbn [nrows]. fold d0.
      assert (d0 <= nrows T). { rewrite T1, EXL, zlen_flat_map. cbn [map]. rewrite zsum_cons. fold (w nu_min nu_max v_min v_max L0). fold d0.
        assert (0 <= zsum (map (fun L => zlen (xlbs nu_min nu_max v_min v_max L L)) Lv)); [|lia].
        apply zsum_nonneg. intros y Hy. apply in_map_iff in Hy. destruct Hy as (z & <- & _). apply zlen_nonneg. }
      assert (0 <= d0) by (unfold d0, w; apply zlen_nonneg). rewrite !slice_bound_in by lia. lia. }
    assert (FAIL : forall T, RepX s (g_rat_TRop s) anorm lambda_base nu_min nu_max v_min v_max L0 (Some hi) = Ok T ->
       forall Q0 invs r, inv P0 = Ok Q0 -> amp_rows fs T (combine (P0 :: ebs) (L0 :: Lv)) (combine (Q0 :: invs) (L0 :: Lv)) r = Raise ValueError).
    { intros T ET Q0 invs r EQ. destruct (GR _ _ _ _ _ _ ET EN) as (T1 & T2). destruct (EB T) as (B & EBk & NB); [lia|lia|].
      cbn [combine amp_rows amp_cols]. rewrite EBk. cbn [bind]. apply GV in EQ; [|lia]. unfold matmul at 1.
      replace (ncols Q0 =? nrows B) with false by lia. reflexivity. }
    split.
    - intros x E. apply bind_ok in E. destruct E as (T & ET & E). apply bind_ok in E. destruct E as (T' & ET' & E).
      unfold LBlockNDFloatArray_init in ET'. destruct (raise_if _ _); [|discriminate]. cbn [bind] in ET'. injection ET' as <-.
      apply bind_ok in E. destruct E as (r & _ & E). apply bind_ok in E. destruct E as (invs & EI & E). apply bind_ok in E. destruct E as (r' & ER & E).
      cbn [mapM] in EI. apply bind_ok in EI. destruct EI as (Q0 & EQ & EI). apply bind_ok in EI. destruct EI as (invs' & _ & EI). injection EI as <-.
      rewrite (FAIL T ET Q0 invs' r EQ) in ER. discriminate.
    - intros TR TV. destruct (TR (g_rat_TRop s) L0 hi) as (T & ET); [lia|]. rewrite ET. cbn [bind].
      destruct (GR _ _ _ _ _ _ ET EN) as (T1 & T2). unfold LBlockNDFloatArray_init. cbn [np_empty nrows ncols].
      replace (nrows T =? ncols T) with true by lia. cbn [negb raise_if bind].
      assert (TV' : forall P, In P (P0 :: ebs) -> exists Q, inv P = Ok Q) by (intros P HP; destruct (FP P HP) as (M & vals & EM); eapply TV; exact EM).
      assert (EI : forall l, (forall P, In P l -> exists Q, inv P = Ok Q) -> exists invs, mapM inv l = Ok invs).
      { induction l as [|M l IH]; intros HI; [now exists []|]. cbn [mapM]. destruct (HI M) as (Q & ->); [now left|]. cbn [bind].
        destruct IH as (invs & IH); [auto with datatypes|]. rewrite IH. cbn [bind]. eauto. }
      destruct (EI ebs) as (invs & EI'); [auto with datatypes|]. destruct (TV' P0) as (Q0 & EQ); [now left|]. cbn [mapM]. rewrite EQ. cbn [bind]. rewrite EI'. cbn [bind].
      rewrite (FAIL T ET Q0 invs _ EQ). reflexivity.
  Qed.

  (** With two angular momenta or more and a request for rates or amplitudes,
      neither scaling nor adapting ever succeeds for such a Hamiltonian. *)
  Theorem C61_never_succeeds : forall fit_eig fit_rat L_min L_max s L1 L2 x s' o,
    good_shapes -> Op_Tame ham_op = false ->
    L_min <= L1 -> L1 < L2 -> L2 <= L_top L_min L_max -> has_states v_min v_max L1 -> has_states v_min v_max L2 ->
    g_rat_lst s <> [] \/ g_amp_lst s <> [] ->
    ACM_ScaleOrAdapt flt RepX eigh inv junk ham_op anorm lambda_base nu_min nu_max v_min v_max fit_eig fit_rat L_min L_max s <> (Ok x, s', o).
  Proof.
    intros fe fr L_min L_max s L1 L2 x s' o GS HT H1 H2 H3 S1 S2 Hl E.
    change (run fe fr L_min L_max s = (Ok x, s', o)) in E. rewrite run_stages in E.
    apply pbind_inv in E. destruct E as [(y & s0 & o0 & o1 & E0 & E & ->) | (e & _ & X)]; [|discriminate].
    unfold praise in E0. injection E0 as E0 <- <-. destruct y as [[ev ebs] Lv]. apply bind_ok in E0. destruct E0 as ([] & EC & ED).
    destruct (C38_Lvals _ _ _ _ _ _ _ _ _ _ _ _ _ ED) as (_ & HLv & _).
    apply pbind_inv in E. destruct E as [(u & s1 & o1' & o2 & E1 & E & ->) | (e & _ & X)]; [|discriminate].
    apply pbind_inv in E. destruct E as [(tr0 & s2 & o3 & o4 & E2 & E & ->) | (e & _ & X)]; [|discriminate].
    unfold rat_stage in E2. replace ((0 <? zlen (g_rat_lst s)) || (0 <? zlen (g_amp_lst s))) with true in E2
      by (unfold zlen; destruct Hl; [destruct (g_rat_lst s)|destruct (g_amp_lst s)]; try congruence; cbn [length]; lia).
    apply pbind_inv in E2. destruct E2 as [(m & s3 & o5 & o6 & E3 & E2 & ->) | (e & _ & X)]; [|discriminate].
    unfold praise in E3. injection E3 as EA _ _. revert EA. apply (amp_full_fails s L_min L_max ev ebs Lv L1 L2); try assumption; apply HLv; (split; [lia|assumption]).
  Qed.

  Theorem C61_value_error : forall L_min L_max s L1 L2,
    good_shapes -> Op_Tame ham_op = false ->
    (forall op lo hi, 0 <= lo <= hi -> exists M, RepX s op anorm lambda_base nu_min nu_max v_min v_max lo (Some hi) = Ok M) ->
    (forall M, 0 <= nrows M -> nrows M = ncols M -> exists ve, eigh M = Ok ve) ->
    (forall M vals P, eigh M = Ok (vals, P) -> exists Q, inv P = Ok Q) ->
    0 <= nu_min <= nu_max -> 0 <= v_min <= v_max ->
    0 <= L_min <= L1 -> L1 < L2 -> L2 <= L_top L_min L_max -> has_states v_min v_max L1 -> has_states v_min v_max L2 ->
    g_rat_lst s <> [] \/ g_amp_lst s <> [] -> 0 <= g_eig_num s ->
    exists o, ACM_Scale flt RepX eigh inv junk ham_op anorm lambda_base nu_min nu_max v_min v_max L_min L_max s = (Raise ValueError, s, o).
  Proof.
    intros L_min L_max s L1 L2 GS HT TR TE TV Hn Hv H1 H2 H3 S1 S2 Hl Hnum.
    assert (K : snd (fst (run 0 0 L_min L_max s)) = s) by apply C40_scale_keeps.
    change (exists o, run 0 0 L_min L_max s = (Raise ValueError, s, o)).
    rewrite run_stages in K |- *. rewrite checks_ok in K |- *; try lia. cbn [bind] in *.
    assert (DD : exists x, dig s L_min L_max = Ok x).
    { unfold dig. rewrite HT. unfold DigXspace. fold (L_top L_min L_max). rewrite !require_range_ok by lia. cbn [bind].
      destruct (TR ham_op L_min (L_top L_min L_max)) as (rep & ER); [lia|]. rewrite ER. cbn [bind]. pose proof GS as (GR & _).
      assert (EN : dimXspace nu_min nu_max v_min v_max L_min (Some (L_top L_min L_max)) = Ok (zlen (xlbs nu_min nu_max v_min v_max L_min (L_top L_min L_max))))
        by (rewrite dimXspace_ok by (cbn; lia); reflexivity).
      destruct (GR _ _ _ _ _ _ ER EN) as (T1 & T2).
      assert (NN : forall L, In L (py_range L_min (L_top L_min L_max + 1)) -> 0 <= L) by (intros L H; apply py_range_In in H; lia).
      set (Ls0 := py_range L_min (L_top L_min L_max + 1)) in *. clearbody Ls0.
      generalize 1. generalize (@nil (list R), @nil (mat R), @nil Z). revert NN.
      induction Ls0 as [|L Ls IH]; intros NN [[a b] c] st; cbn [dig_full]; [eauto|].
      rewrite nsph_model by auto with datatypes. cbn [bind]. destruct (0 <? nsph v_min v_max L); [|apply IH; auto with datatypes].
      set (bl := slice rep _ _ _ _). assert (SB : nrows bl = ncols bl) by (subst bl; unfold slice; cbn [nrows ncols]; now rewrite T1, T2).
      unfold Eigenfiddle at 1. replace (nrows bl =? ncols bl) with true by lia. cbn [negb raise_if bind].
      destruct (TE (mscale (/ 2) (madd bl (transpose bl)))) as ([vals bases] & EE); [cbn [nrows mscale madd]; subst bl; unfold slice; cbn [nrows]; lia|exact SB|]. rewrite EE. cbn [bind]. apply IH; auto with datatypes. }
    destruct DD as ([[ev ebs] Lv] & ED). rewrite ED, pbind_ok in K |- *.
    destruct (C38_Lvals _ _ _ _ _ _ _ _ _ _ _ _ _ ED) as (_ & HLv & LE & _).
    assert (I1 : In L1 Lv) by (apply HLv; split; [lia|assumption]). assert (I2 : In L2 Lv) by (apply HLv; split; [lia|assumption]).
    destruct (amp_full_fails s L_min L_max ev ebs Lv L1 L2) as (_ & FA); try assumption. specialize (FA TR TV).
    assert (EE : exists o, eig_stage 0 s ev Lv s = (Ok tt, s, o) \/ eig_stage 0 s ev Lv s = (Raise ValueError, s, o)).
    { unfold eig_stage. destruct (0 <? g_eig_num s) eqn:En; [|eexists; now left]. replace (0 <? 0) with false by reflexivity.
      rewrite (pbind_pret tt (fun _ => _)). destruct (Show_Eigs flt ev Lv (Some (g_eig_num s)) None None s) as [[[lo|er] s9] o9] eqn:ES;
        pose proof (keeps_run _ _ _ _ _ (keeps_Show_Eigs _ _ _ _ _ _) ES) as ->; unfold pbind; rewrite ES; [eexists; now left|].
      exists o9. right. pose proof (VE_Show_Eigs ev Lv (Some (g_eig_num s)) None None s er) as X. rewrite ES in X. now rewrite (X eq_refl). }
    destruct EE as (o & [EE | EE]); unfold pbind; rewrite EE; [|now exists o].
    unfold rat_stage, pbind, praise. rewrite FA.
    replace ((0 <? zlen (g_rat_lst s)) || (0 <? zlen (g_amp_lst s))) with true
      by (unfold zlen; destruct Hl; [destruct (g_rat_lst s)|destruct (g_amp_lst s)]; try congruence; cbn [length]; lia).
    eexists. reflexivity.
  Qed.
End Driver.

(** ** Examples *)

(** A small instance for the examples: the matrices have 1 off the diagonal,
    and on it the numbers from L_min on; the solver returns the diagonal. *)
Definition toy_RepX (s : settings) (op : OperatorSum) (anorm lambda_base : R) (nu_min nu_max v_min v_max lo : Z) (hi : option Z) : res (mat R) :=
  match dimXspace nu_min nu_max v_min v_max lo hi with
  | Ok N => Ok (mkMat N N (fun i j => if i =? j then IZR (lo + i) else 1%R))
  | Raise _ => Raise ValueError
  end.
Definition toy_eigh (M : mat R) : res (list R * mat R) :=
  if nrows M <? 0 then Raise ValueError else Ok (map (fun i => ent M i i) (py_range 0 (nrows M)), eye (nrows M)).
Definition toy_inv (M : mat R) : res (mat R) := Ok M.
Definition toy_settings : settings := w_rat_fun (fun _ _ _ x => Ok (x * x + 1)%R) (w_rat_lst [[2; 0; 1; 1]] imported).

Lemma toy_shapes anorm lambda_base nu_min nu_max v_min v_max : good_shapes toy_RepX toy_eigh toy_inv anorm lambda_base nu_min nu_max v_min v_max.
Proof.
  split; [|split].
  - intros s op lo hi m N E D. unfold toy_RepX in E. rewrite D in E. injection E as <-. now split.
  - intros M vals P Sq E. unfold toy_eigh in E. destruct (nrows M <? 0) eqn:L; [discriminate|]. injection E as <- <-.
    rewrite zlen_map. unfold zlen. rewrite py_range_length. split; [lia|]. now split.
  - intros M Q Sq E. injection E as <-. split; congruence.
Qed.

Lemma toy_no_IE anorm lambda_base nu_min nu_max v_min v_max : numerics_no_IE toy_RepX toy_eigh toy_inv anorm lambda_base nu_min nu_max v_min v_max toy_settings.
Proof.
  unfold numerics_no_IE, no_IE. split; [|split; [|split; [|split]]].
  - intros. unfold toy_RepX. destruct (dimXspace _ _ _ _ _ _); discriminate.
  - intros. unfold toy_eigh. destruct (_ <? _); discriminate.
  - discriminate.
  - discriminate.
  - intros. cbn. unfold math_sqrt. destruct (Rlt_dec _ _); discriminate.
Qed.

(** Levels 0 at L = 0 and 2, 3 at L = 2. *)
Definition toy_levels : list (list R) := [[(/ 2 * (0 + 0))%R]; [(/ 2 * (2 + 2))%R; (/ 2 * (3 + 3))%R]].
Lemma toy_dig s : dig toy_RepX toy_eigh [] 1 1 0 0 0 2 s 0 (Some 2) = Ok (toy_levels, [eye 1; eye 2], [0; 2]).
Proof. vm_compute. reflexivity. Qed.

Lemma toy_low : min_head toy_levels = Ok 0%R.
Proof.
  unfold min_head, toy_levels, heads. cbn [flat_map app fold_left]. f_equal. unfold Rmin. destruct (Rle_dec _ _) as [A|A]; lra.
Qed.

Example C40_example : forall flt, exists r s' o,
  ACM_Adapt flt toy_RepX toy_eigh toy_inv (fun _ _ => 0%R) [] 1 1 0 0 0 2 0 (Some 2) toy_settings = (Ok r, s', o) /\
  g_eig_sft s' = (2 / 6)%R /\
  In (values_line flt s' 4 0 2 (nth 1 toy_levels [])) o /\
  In (value_line flt s' (chars "  B(E2: ") (chars ") = ") [] 2 1 0 1 100) o.
Proof.
  intros flt. set (s := toy_settings).
  assert (Av2 : available 0 0 0 2 2 1 0 (Some 2)) by (split; [cbn; lia|]; exists 2; split; [reflexivity|lia]).
  assert (Av0 : available 0 0 0 2 0 1 0 (Some 2)) by (split; [cbn; lia|]; exists 1; split; [reflexivity|lia]).
  pose proof (toy_shapes 1 1 0 0 0 2) as GS.
  assert (EA : exists m fs, amp_stage toy_RepX toy_inv 1 1 0 0 0 2 s [eye 1; eye 2] [0; 2] = Ok (m, fs)) by (do 2 eexists; vm_compute; reflexivity).
  destruct EA as (m & fs & EA).
  destruct (amp_stage_blocks flt toy_RepX toy_eigh toy_inv (fun _ _ => 0%R) [] 1 1 0 0 0 2 s 0 (Some 2) _ _ _ m fs GS (toy_dig s) EA) as (EL & _ & start & dim & HA & HD).
  assert (D0 : dim 0 = 1) by (assert (I : In 0 [0; 2]) by (cbn; auto); specialize (HD 0 I); vm_compute in HD; now injection HD).
  assert (D2 : dim 2 = 2) by (assert (I : In 2 [0; 2]) by (cbn; auto); specialize (HD 2 I); vm_compute in HD; now injection HD).
  set (s1 := w_eig_sft (2 / 6) s).
  assert (E1 : fit_eigenvalues toy_levels [0; 2] s = (Ok tt, s1, [])).
  { unfold fit_eigenvalues. cbn [g_eig_rel s toy_settings w_rat_fun w_rat_lst imported].
    change (g_eig_rel s) with true. rewrite toy_low. unfold pbind, praise, pget, passign, pret. cbn [negb mem existsb raise_if Z.eqb Pos.eqb orb find combine toy_levels].
    change (g_eig_L s) with 2. change (g_eig_idx s) with 1. change (g_eig_fit s) with 6%R. cbn.
    replace ((/ 2 * (2 + 2) - 0) / 6)%R with (2 / 6)%R by field. destruct (Req_EM_T (2 / 6) 0) as [X|X]; [exfalso; lra|reflexivity]. }
  assert (E2 : exists o, Show_Eigs flt toy_levels [0; 2] (Some 4) None None s1 = (Ok (Some 0%R), s1, o)).
  { destruct (C62_shown flt toy_levels [0; 2] 4 None None s1 0) as (k & _ & E); [lia|discriminate|exact I| |exact toy_low|eauto].
    exists 0. split; [now left|]. unfold shown_L, L_MAX_DEFAULT. lia. }
  destruct E2 as (o2 & E2).
  assert (NR : 0 < nrows (known (fun _ _ => 0%R) m)).
  { destruct (HA 2) as (_ & P1 & P2 & P3 & _); [cbn [snd]; rewrite EL; cbn; auto|]. cbn [fst] in P3. lia. }
  set (M := (known (fun _ _ => 0%R) m, fs)) in *.
  set (x := element M start 2 1 0 1).
  assert (Pr : (0 < x * x + 1)%R) by (pose proof (Rle_0_sqr x) as P; unfold Rsqr in P; lra).
  assert (E3 : exists a, fit_rates M [0; 2] s1 = (Ok tt, w_amp_sft a (w_rat_sft ((x * x + 1) / 100) s1), [])).
  { unfold fit_rates, pbind, praise, pget, passign, pret. change (g_rat_L1 s1) with 2. change (g_rat_L2 s1) with 0.
    change (g_rat_1dx s1) with 1. change (g_rat_2dx s1) with 1. change (g_rat_fit s1) with 100%R. cbn [negb mem existsb raise_if Z.eqb Pos.eqb orb].
    rewrite (block_val M start dim HA 2 0) by (cbn [snd M]; rewrite EL; cbn; auto).
    unfold np_get, np_index. cbn [nrows ncols ent]. rewrite D0, D2. cbn [Z.sub Z.ltb Z.leb Z.compare Z.add Z.opp Z.pos_sub Pos.compare Pos.compare_cont andb bind].
    replace (ent (fst M) (start 0 + 0) (start 2 + 0)) with x by (unfold x, element; f_equal; lia).
    change (g_rat_fun s1) with ((fun _ _ _ x => Ok (x * x + 1)%R) : mel_fun). change (g_amp_sft_fun s1) with math_sqrt. cbv beta.
    cbv iota beta. rewrite Rabs_pos_eq by lra. destruct (Req_EM_T _ _) as [X|X]; [exfalso; lra|]. unfold math_sqrt. destruct (Rlt_dec _ _) as [Y|Y]; [exfalso; lra|].
    eexists. reflexivity. }
  destruct E3 as (a & E3). set (s2 := w_amp_sft a (w_rat_sft ((x * x + 1) / 100) s1)) in *.
  assert (PF : plain_formats s2 (g_rat_format s2) (chars "  B(E2: ") (chars ") = ") []) by (apply imported_formats).
  assert (E4 : exists o, Show_Rats flt M (Some [[2; 0; 1; 1]]) (Some 4) s2 = (Ok tt, s2, o)).
  { unfold Show_Rats, pbind, pget. cbn [default].
    destruct (C42_quartet flt M start dim 4 (g_rat_fun s2) (g_rat_sft s2) s2 (g_rat_format s2) (chars "  B(E2: ") (chars ") = ") [] (g_rat_desg s2) 2 0 1 1 HA NR PF) as (_ & Q & _).
    rewrite (Q ltac:(cbn [snd M]; rewrite EL, D0, D2; repeat split; try lia; cbn; auto) (x * x + 1)%R eq_refl). eexists. reflexivity. }
  destruct E4 as (o4 & E4).
  assert (E : exists r o, ACM_Adapt flt toy_RepX toy_eigh toy_inv (fun _ _ => 0%R) [] 1 1 0 0 0 2 0 (Some 2) s = (Ok (toy_levels, r, [0; 2]), s2, o)).
  { unfold ACM_Adapt. rewrite run_stages. rewrite (checks_ok flt toy_RepX toy_eigh toy_inv (fun _ _ => 0%R) [] 1 1); [|lia|lia|lia|lia|change (L_top 0 (Some 2)) with 2; lia|intros; exact Av2|intros; split; [exact Av2|exact Av0]].
    cbn [bind]. rewrite toy_dig, pbind_ok. unfold pbind at 1, eig_stage. change (0 <? g_eig_num s) with true. change (0 <? 1) with true. cbv iota.
    unfold pbind at 1. rewrite E1. unfold pbind at 1. change (g_eig_num s) with 4. rewrite E2. unfold pret at 1.
    unfold pbind at 1, rat_stage. change ((0 <? zlen (g_rat_lst s)) || (0 <? zlen (g_amp_lst s))) with true. cbv iota. rewrite EA, pbind_ok. change (0 <? 1) with true. cbv iota.
    unfold pbind at 1. fold M. rewrite E3. unfold pbind at 1. change (g_rat_lst s) with [[2; 0; 1; 1]]. change (g_rat_num s) with 4. rewrite E4.
    unfold pbind, Show_Amps, pget, pret. cbn [default]. change (g_amp_lst s) with (@nil (list Z)). do 2 eexists. reflexivity. }
  destruct E as (r & o & E). exists (toy_levels, r, [0; 2]), s2, o. split; [exact E|]. split; [reflexivity|]. split.
  - destruct (C40_adapt_eigenvalue flt toy_RepX toy_eigh toy_inv (fun _ _ => 0%R) [] 1 1 0 0 0 2 1 1 0 (Some 2) s _ _ _ s2 o E) as (vals & y & low & Hv & _ & Hl & _ & _ & _ & H);
      [reflexivity|reflexivity|vm_compute; discriminate|intros X; change (g_eig_fit s) with 6%R in X; lra|vm_compute; discriminate|].
    change (g_eig_rel s) with true in Hl. cbv iota in Hl. rewrite toy_low in Hl. injection Hl as <-.
    change (g_eig_L s) with 2 in *. change (g_eig_num s) with 4 in H. cbn [combine toy_levels] in Hv. destruct Hv as [X | [X | []]]; [discriminate|]. injection X as <-. exact H.
  - destruct (C40_adapt_rate flt toy_RepX toy_eigh toy_inv (fun _ _ => 0%R) [] 1 1 0 0 0 2 1 1 0 (Some 2) s _ _ _ s2 o GS E) as (M' & st' & d' & rate & Q);
      [reflexivity|left; discriminate|vm_compute; discriminate|vm_compute; discriminate|intros X; change (g_rat_fit s) with 100%R in X; lra|]. destruct Q as (_ & _ & _ & _ & _ & _ & _ & _ & ER & _ & _ & _ & _ & Q).
    apply Q; [now left|apply imported_formats|]. injection ER as <-. pose proof (Rle_0_sqr (element M' st' 2 1 0 1)) as P; unfold Rsqr in P. cbn. lra.
Qed.

Example C40_lowest_example : forall flt,
  ACM_Adapt flt toy_RepX toy_eigh toy_inv (fun _ _ => 0%R) [] 1 1 0 0 0 2 0 (Some 2) (w_eig_L 0 toy_settings)
  = (Raise ValueError, w_eig_sft 0 (w_eig_L 0 toy_settings), []).
Proof.
  intros flt. assert (Av2 : available 0 0 0 2 2 1 0 (Some 2)) by (split; [cbn; lia|]; exists 2; split; [reflexivity|lia]).
  assert (Av0 : available 0 0 0 2 0 1 0 (Some 2)) by (split; [cbn; lia|]; exists 1; split; [reflexivity|lia]).
  eapply (C40_adapt_lowest flt toy_RepX toy_eigh toy_inv (fun _ _ => 0%R) [] 1 1 0 0 0 2 1 1 0 (Some 2) _ _ _ _ [(/ 2 * (0 + 0))%R] (/ 2 * (0 + 0))%R (toy_dig (w_eig_L 0 toy_settings)));
    [lia|lia|reflexivity|vm_compute; discriminate|reflexivity|cbn; lra|exact Av0|right; split; [exact Av2|exact Av0]|left; reflexivity|reflexivity|].
  rewrite toy_low. f_equal. lra.
Qed.

Example C41_example : forall flt,
  ACM_Adapt flt toy_RepX toy_eigh toy_inv (fun _ _ => 0%R) [] 1 1 0 0 0 2 0 (Some 2) (w_rat_1dx 3 toy_settings) = (Raise ValueError, w_rat_1dx 3 toy_settings, []) /\
  let s := w_eig_num 0 (w_amp_lst [[2; 0; 1; 1]] (w_rat_lst [] (w_rat_1dx 3 toy_settings))) in
  ACM_Adapt flt toy_RepX toy_eigh toy_inv (fun _ _ => 0%R) [] 1 1 0 0 0 2 0 (Some 2) s = (Raise IndexError, s, []).
Proof.
  intros flt. split.
  - apply C41_unavailable. right. split; [lia|]. split; [discriminate|]. left. intros (_ & d & D & B). injection D as <-. cbn in B. lia.
  - intros s. assert (EA : exists m fs, amp_stage toy_RepX toy_inv 1 1 0 0 0 2 s [eye 1; eye 2] [0; 2] = Ok (m, fs)) by (do 2 eexists; vm_compute; reflexivity).
    destruct EA as (m & fs & EA).
    apply (C41_index_error flt toy_RepX toy_eigh toy_inv (fun _ _ => 0%R) [] 1 1 0 0 0 2 1 1 0 (Some 2) s _ _ _ m fs 2 1 (toy_shapes 1 1 0 0 0 2) (toy_dig s) EA);
      [lia|lia|reflexivity|reflexivity|discriminate|right; left; reflexivity|left; reflexivity|reflexivity|reflexivity|vm_compute; discriminate|vm_compute; discriminate|].
    left. reflexivity.
Qed.

Example C61_example : forall flt, exists o,
  ACM_Scale flt toy_RepX toy_eigh toy_inv (fun _ _ => 0%R) [(CNum 1, [Xspace_PiPi2])] 1 1 0 0 0 2 0 (Some 2) toy_settings = (Raise ValueError, toy_settings, o).
Proof.
  intros flt. apply (C61_value_error flt toy_RepX toy_eigh toy_inv (fun _ _ => 0%R) [(CNum 1, [Xspace_PiPi2])] 1 1 0 0 0 2 0 (Some 2) toy_settings 0 2);
    [apply toy_shapes|reflexivity| | | |lia|lia|lia|lia|change (L_top 0 (Some 2)) with 2; lia| | |left; discriminate|vm_compute; discriminate].
  - intros op lo hi H. unfold toy_RepX. rewrite dimXspace_ok by (cbn; lia). eauto.
  - intros M H _. unfold toy_eigh. replace (nrows M <? 0) with false by lia. eauto.
  - intros M vals P _. unfold toy_inv. eauto.
  - exists 0. split; [lia|reflexivity].
  - exists 1. split; [lia|reflexivity].
Qed.

Example C62_example : forall flt,
  Show_Eigs flt toy_levels [0; 2] (Some 4) (Some 2) None toy_settings
  = (Ok (Some 0%R), toy_settings, [eigs_header flt toy_settings 0; values_line flt toy_settings 4 0 2 (nth 1 toy_levels [])]).
Proof.
  intros flt. destruct (C62_shown flt toy_levels [0; 2] 4 (Some 2) None toy_settings 0) as (keep & K & E).
  - lia.
  - discriminate.
  - unfold range_ok, L_MAX_DEFAULT. lia.
  - exists 2. split; [cbn; auto|reflexivity].
  - exact toy_low.
  - rewrite E. cbn [combine toy_levels filter].
    destruct (keep (0, _)) eqn:K0; [apply K in K0; discriminate|]. destruct (keep (2, _)) eqn:K2; [reflexivity|].
    exfalso. match type of K2 with keep (_, ?v) = _ => assert (X : keep (2, v) = true) by (apply K; reflexivity) end. congruence.
Qed.

Print Assumptions C47_symmetrised.
Print Assumptions C47_not_square.
Print Assumptions C62_lowest.
Print Assumptions C62_no_lowest.
Print Assumptions C62_shown.
Print Assumptions C62_nothing.
Print Assumptions C40_scale_keeps.
Print Assumptions C40_only_scale_factors.
Print Assumptions C40_adapt_eigenvalue.
Print Assumptions C40_adapt_rate.
Print Assumptions C40_adapt_lowest.
Print Assumptions C41_unavailable.
Print Assumptions C41_no_index_error.
Print Assumptions C41_index_error.
Print Assumptions C61_never_succeeds.
Print Assumptions C61_value_error.
