(** Facts about the shared vocabulary of PyBase.v. *)

From Coq Require Import Lia Sorted FinFun ZifyBool ZifyNat.
From Verif Require Import PyBase.

Ltac Zify.zify_post_hook ::= Z.div_mod_to_equations.

(** * Ranges *)

Lemma py_range_nil lo hi : hi <= lo -> py_range lo hi = [].
Proof. intros H. unfold py_range. now replace (Z.to_nat (hi - lo)) with 0%nat by lia. Qed.

Lemma py_range_cons lo hi : lo < hi -> py_range lo hi = lo :: py_range (lo + 1) hi.
Proof.
  intros H. unfold py_range.
  replace (Z.to_nat (hi - lo)) with (S (Z.to_nat (hi - (lo + 1)))) by lia.
  cbn [seq map]. rewrite <- seq_shift, map_map. f_equal. lia.
  apply map_ext. intros. lia.
Qed.

Lemma py_range_app lo mid hi :
  lo <= mid <= hi -> py_range lo hi = py_range lo mid ++ py_range mid hi.
Proof.
  intros H. unfold py_range.
  replace (Z.to_nat (hi - lo)) with (Z.to_nat (mid - lo) + Z.to_nat (hi - mid))%nat by lia.
  rewrite seq_app, map_app. f_equal. cbn.
  rewrite <- (Nat.add_0_r (Z.to_nat (mid - lo))) at 1.
  generalize (Z.to_nat (hi - mid)) as n. intros n.
  assert (E : Z.of_nat (Z.to_nat (mid - lo)) = mid - lo) by lia.
  revert E. generalize (Z.to_nat (mid - lo)) as m. intros m E.
  assert (G : forall k, map (fun i => lo + Z.of_nat i) (seq (m + k) n)
                = map (fun i => mid + Z.of_nat i) (seq k n)).
  { induction n as [|n IH]; intros k; cbn; [reflexivity|].
    f_equal. lia. rewrite <- IH. f_equal. f_equal. lia. }
  apply (G 0%nat).
Qed.

Lemma py_range_snoc lo hi : lo <= hi -> py_range lo (hi + 1) = py_range lo hi ++ [hi].
Proof.
  intros H. rewrite (py_range_app lo hi (hi + 1)) by lia. f_equal.
  rewrite py_range_cons by lia. now rewrite py_range_nil by lia.
Qed.

Lemma py_range_single lo : py_range lo (lo + 1) = [lo].
Proof. rewrite py_range_cons by lia. now rewrite py_range_nil by lia. Qed.

Lemma py_range_In lo hi x : In x (py_range lo hi) <-> lo <= x < hi.
Proof.
  unfold py_range. rewrite in_map_iff. split.
  - intros (i & <- & Hi). apply in_seq in Hi. lia.
  - intros H. exists (Z.to_nat (x - lo)). split; [lia|]. apply in_seq. lia.
Qed.

Lemma py_range_length lo hi : length (py_range lo hi) = Z.to_nat (hi - lo).
Proof. unfold py_range. now rewrite map_length, seq_length. Qed.

Lemma py_range_zlen lo hi : lo <= hi -> zlen (py_range lo hi) = hi - lo.
Proof. intros. unfold zlen. rewrite py_range_length. lia. Qed.

Lemma py_range_NoDup lo hi : NoDup (py_range lo hi).
Proof.
  unfold py_range. apply FinFun.Injective_map_NoDup.
  - intros a b E. lia.
  - apply seq_NoDup.
Qed.

Lemma py_range_nth lo hi k :
  (k < Z.to_nat (hi - lo))%nat -> nth_error (py_range lo hi) k = Some (lo + Z.of_nat k).
Proof.
  intros H. unfold py_range.
  assert (E : nth_error (seq 0 (Z.to_nat (hi - lo))) k = Some k).
  { rewrite (nth_error_nth' _ 0%nat); [rewrite seq_nth by lia; reflexivity|].
    rewrite seq_length. lia. }
  now apply (map_nth_error (fun i => lo + Z.of_nat i)) in E.
Qed.

Lemma py_range_sorted lo hi : StronglySorted Z.lt (py_range lo hi).
Proof.
  remember (Z.to_nat (hi - lo)) as n eqn:E. revert lo E.
  induction n as [|n IH]; intros lo E.
  - rewrite py_range_nil by lia. constructor.
  - rewrite py_range_cons by lia. constructor.
    + apply IH. lia.
    + apply Forall_forall. intros x Hx. apply py_range_In in Hx. lia.
Qed.

(** Induction along a range. *)
Lemma range_ind (P : Z -> Prop) lo :
  P lo -> (forall n, lo <= n -> P n -> P (n + 1)) -> forall n, lo <= n -> P n.
Proof.
  intros H0 HS n Hn. replace n with (lo + Z.of_nat (Z.to_nat (n - lo))) by lia.
  generalize (Z.to_nat (n - lo)) as k. intros k. induction k as [|k IH].
  - now rewrite Z.add_0_r.
  - replace (lo + Z.of_nat (S k)) with (lo + Z.of_nat k + 1) by lia.
    apply HS; [lia|exact IH].
Qed.

(** * Sums *)

Lemma zsum_app a b : zsum (a ++ b) = zsum a + zsum b.
Proof. unfold zsum. induction a as [|x a IH]; cbn; [reflexivity|]. rewrite IH. lia. Qed.

Lemma zsum_cons x l : zsum (x :: l) = x + zsum l.
Proof. reflexivity. Qed.

Lemma zsum_concat ls : zsum (concat ls) = zsum (map zsum ls).
Proof.
  induction ls as [|l ls IH]; [reflexivity|].
  cbn [concat map]. rewrite zsum_app, zsum_cons, IH. reflexivity.
Qed.

Lemma zsum_map_ext {A} (f g : A -> Z) l :
  (forall x, In x l -> f x = g x) -> zsum (map f l) = zsum (map g l).
Proof. intros H. f_equal. apply map_ext_in. exact H. Qed.

Lemma zsum_map_add {A} (f g : A -> Z) l :
  zsum (map (fun x => f x + g x) l) = zsum (map f l) + zsum (map g l).
Proof. induction l as [|x l IH]; [reflexivity|]. cbn [map]. rewrite !zsum_cons, IH. lia. Qed.

Lemma zsum_map_scale {A} c (f : A -> Z) l :
  zsum (map (fun x => c * f x) l) = c * zsum (map f l).
Proof. induction l as [|x l IH]; [cbn; lia|]. cbn [map]. rewrite !zsum_cons, IH. lia. Qed.

Lemma zsum_map_zero {A} (f : A -> Z) l :
  (forall x, In x l -> f x = 0) -> zsum (map f l) = 0.
Proof.
  induction l as [|x l IH]; intros H; [reflexivity|].
  cbn [map]. rewrite zsum_cons, IH, H; auto with datatypes.
Qed.

Lemma zsum_nonneg l : (forall x, In x l -> 0 <= x) -> 0 <= zsum l.
Proof.
  induction l as [|x l IH]; intros H; [cbn; lia|].
  rewrite zsum_cons. specialize (IH (fun y Hy => H y (or_intror Hy))).
  specialize (H x (or_introl eq_refl)). lia.
Qed.

(** Telescoping sum over a range. *)
Lemma zsum_telescope (f G : Z -> Z) lo hi :
  lo <= hi ->
  (forall i, lo <= i < hi -> f i = G (i + 1) - G i) ->
  zsum (map f (py_range lo hi)) = G hi - G lo.
Proof.
  intros H. revert hi H. apply (range_ind (fun hi =>
    (forall i, lo <= i < hi -> f i = G (i + 1) - G i) ->
    zsum (map f (py_range lo hi)) = G hi - G lo)).
  - intros _. rewrite py_range_nil by lia. cbn. lia.
  - intros n Hn IH Hf. rewrite py_range_snoc, map_app, zsum_app by lia.
    rewrite IH by (intros; apply Hf; lia).
    cbn [map]. rewrite zsum_cons, (Hf n) by lia. cbn. lia.
Qed.

(** * Lengths *)

Lemma zlen_app {A} (a b : list A) : zlen (a ++ b) = zlen a + zlen b.
Proof. unfold zlen. rewrite app_length. lia. Qed.

Lemma zlen_map {A B} (f : A -> B) l : zlen (map f l) = zlen l.
Proof. unfold zlen. now rewrite map_length. Qed.

Lemma zlen_cons {A} (a : A) l : zlen (a :: l) = 1 + zlen l.
Proof. unfold zlen. cbn [length]. lia. Qed.

Lemma zlen_nonneg {A} (l : list A) : 0 <= zlen l.
Proof. unfold zlen. lia. Qed.

Lemma zlen_flat_map {A B} (f : A -> list B) l :
  zlen (flat_map f l) = zsum (map (fun x => zlen (f x)) l).
Proof.
  induction l as [|x l IH]; [reflexivity|].
  cbn [flat_map map]. now rewrite zlen_app, zsum_cons, IH.
Qed.

(** * Comprehensions *)

Lemma mapM_ok {A B} (f : A -> res B) (g : A -> B) l :
  (forall x, In x l -> f x = Ok (g x)) -> mapM f l = Ok (map g l).
Proof.
  induction l as [|x l IH]; intros H; [reflexivity|].
  cbn [mapM map]. rewrite (H x) by auto with datatypes. cbn [bind].
  rewrite IH by auto with datatypes. reflexivity.
Qed.

Lemma concatM_ok {A B} (f : A -> res (list B)) (g : A -> list B) l :
  (forall x, In x l -> f x = Ok (g x)) -> concatM f l = Ok (flat_map g l).
Proof.
  intros H. unfold concatM. rewrite (mapM_ok f g) by exact H.
  cbn [bind]. now rewrite flat_map_concat_map.
Qed.

Lemma bind_ok {A B} (m : res A) (f : A -> res B) b :
  bind m f = Ok b -> exists a, m = Ok a /\ f a = Ok b.
Proof. destruct m; cbn; intros H; [eauto|discriminate]. Qed.

(** * Sortedness of flat_map *)

Lemma StronglySorted_app {A} (R : A -> A -> Prop) l1 l2 :
  StronglySorted R l1 -> StronglySorted R l2 ->
  (forall x y, In x l1 -> In y l2 -> R x y) ->
  StronglySorted R (l1 ++ l2).
Proof.
  induction l1 as [|a l1 IH]; intros H1 H2 H; [exact H2|].
  inversion H1; subst. cbn. constructor.
  - apply IH; auto with datatypes.
  - apply Forall_app. split; [assumption|].
    apply Forall_forall. intros y Hy. apply H; auto with datatypes.
Qed.

Lemma StronglySorted_flat_map {A B} (RA : A -> A -> Prop) (RB : B -> B -> Prop)
      (f : A -> list B) l :
  StronglySorted RA l ->
  (forall x, In x l -> StronglySorted RB (f x)) ->
  (forall x y a b, RA x y -> In a (f x) -> In b (f y) -> RB a b) ->
  StronglySorted RB (flat_map f l).
Proof.
  induction l as [|x l IH]; intros Hs Hf Hc; [constructor|].
  inversion Hs as [|? ? Hs' Hall]; subst. cbn.
  apply StronglySorted_app.
  - apply Hf. auto with datatypes.
  - apply IH; auto with datatypes.
  - intros a b Ha Hb. apply in_flat_map in Hb. destruct Hb as (y & Hy & Hb).
    rewrite Forall_forall in Hall. eauto.
Qed.

Lemma StronglySorted_map {A B} (RA : A -> A -> Prop) (RB : B -> B -> Prop)
      (f : A -> B) l :
  StronglySorted RA l -> (forall x y, RA x y -> RB (f x) (f y)) ->
  StronglySorted RB (map f l).
Proof.
  induction l as [|x l IH]; intros Hs H; [constructor|].
  inversion Hs as [|? ? Hs' Hall]; subst. cbn. constructor; [auto|].
  apply Forall_map. eapply Forall_impl; [|exact Hall]. cbn. auto.
Qed.

Lemma StronglySorted_NoDup {A} (R : A -> A -> Prop) l :
  (forall x, ~ R x x) -> StronglySorted R l -> NoDup l.
Proof.
  intros Hirr. induction 1 as [|x l Hs IH Hall]; constructor; [|assumption].
  intros Hin. rewrite Forall_forall in Hall. exact (Hirr x (Hall x Hin)).
Qed.

Lemma flat_map_ext_in {A B} (f g : A -> list B) l :
  (forall x, In x l -> f x = g x) -> flat_map f l = flat_map g l.
Proof.
  induction l as [|x l IH]; intros H; [reflexivity|].
  cbn. rewrite H, IH; auto with datatypes.
Qed.

Lemma flat_map_nil {A B} (f : A -> list B) l :
  (forall x, In x l -> f x = []) -> flat_map f l = [].
Proof.
  induction l as [|x l IH]; intros H; [reflexivity|].
  cbn. rewrite H, IH; auto with datatypes.
Qed.
