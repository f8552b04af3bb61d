(** Coupling of two angular momenta: the algebra behind the SO(3)
    Clebsch-Gordan coefficients, independent of the model.  [j1], [j2] are
    twice the angular momenta; a state of the first system is numbered by
    [i = j1 - m1] from 0, of the second by [l = j2 - m2], and [N = i + l]. *)

From Coq Require Import Reals Lra.
From Coq Require Import Lia ZifyBool ZifyNat.
From Verif Require Import PyBase PyFacts Matrix RadialME RadialMEFacts.
Open Scope Z_scope.
Ltac Zify.zify_post_hook ::= Z.div_mod_to_equations.

Definition fac (n : Z) : R := INR (fact (Z.to_nat n)).
Definition rf (n : Z) : R := if n <? 0 then 0%R else (/ fac n)%R.

Lemma fac_pos n : (0 < fac n)%R.
Proof. unfold fac. apply (lt_INR 0). apply lt_O_fact. Qed.

Lemma fac_succ n : 0 <= n -> fac (n + 1) = (IZR (n + 1) * fac n)%R.
Proof.
  intros H. unfold fac. replace (Z.to_nat (n + 1)) with (S (Z.to_nat n)) by lia.
  rewrite fact_simpl, mult_INR. f_equal. rewrite INR_IZR_INZ. f_equal. lia.
Qed.

Lemma fac_0 : fac 0 = 1%R.
Proof. reflexivity. Qed.

Lemma rf_neg n : n < 0 -> rf n = 0%R.
Proof. intros H. unfold rf. now replace (n <? 0) with true by lia. Qed.

Lemma rf_nonneg n : 0 <= n -> rf n = (/ fac n)%R.
Proof. intros H. unfold rf. now replace (n <? 0) with false by lia. Qed.

Lemma rf_fac n : 0 <= n -> (rf n * fac n = 1)%R.
Proof. intros H. rewrite rf_nonneg by assumption. pose proof (fac_pos n). field. lra. Qed.

Lemma rf_pred n : rf (n - 1) = (IZR n * rf n)%R.
Proof.
  destruct (Z_lt_dec n 0); [rewrite !rf_neg by lia; lra|].
  destruct (Z.eq_dec n 0) as [->|]; [rewrite rf_neg by lia; lra|].
  rewrite !rf_nonneg by lia.
  pose proof (fac_succ (n - 1)) as E. rewrite Z.sub_add in E. rewrite E by lia.
  pose proof (fac_pos (n - 1)). assert (0 < IZR n)%R by (apply (IZR_lt 0); lia). field. lra.
Qed.

Lemma rsum_front f n : rsum f (S n) = (f 0%Z + rsum (fun k => f (k + 1)%Z) n)%R.
Proof.
  induction n as [|n IH]; [cbn; lra|].
  change (rsum f (S (S n))) with (rsum f (S n) + f (Z.of_nat (S n)))%R. rewrite IH. cbn [rsum].
  replace (Z.of_nat (S n)) with (Z.of_nat n + 1)%Z by lia. lra.
Qed.

Section Coupling.
  Variables j1 j2 : Z.

  Definition W (N i : Z) : R := (fac i * fac (N - i) * rf (j1 - i) * rf (j2 - (N - i)))%R.
  Definition low (f : Z -> R) (i : Z) : R := (f (i - 1)%Z + f i)%R.
  Definition up (N : Z) (f : Z -> R) (i : Z) : R :=
    (IZR ((i + 1) * (j1 - i)) * f (i + 1)%Z + IZR ((N - i + 1) * (j2 - (N - i))) * f i)%R.
  Definition ip (N : Z) (f g : Z -> R) : R :=
    rsum (fun i => (W N i * f i * g i)%R) (Z.to_nat (N + 1)).
  Definition supp (N : Z) (f : Z -> R) : Prop := forall i, i < 0 \/ N < i -> f i = 0%R.

  Lemma W_first N i : 0 <= i <= N -> W (N + 1) (i + 1) = (IZR ((i + 1) * (j1 - i)) * W N i)%R.
  Proof.
    intros H. unfold W. rewrite fac_succ by lia.
    replace (N + 1 - (i + 1)) with (N - i) by ring.
    replace (j1 - (i + 1)) with (j1 - i - 1) by ring. rewrite rf_pred, mult_IZR. ring.
  Qed.

  Lemma W_second N i : 0 <= i <= N ->
    W (N + 1) i = (IZR ((N - i + 1) * (j2 - (N - i))) * W N i)%R.
  Proof.
    intros H. unfold W. replace (N + 1 - i) with (N - i + 1) by ring. rewrite fac_succ by lia.
    replace (j2 - (N - i + 1)) with (j2 - (N - i) - 1) by ring. rewrite rf_pred, mult_IZR. ring.
  Qed.

  Lemma low_supp N f : supp N f -> supp (N + 1) (low f).
  Proof. intros H i Hi. unfold low. rewrite !H by lia. lra. Qed.

  Lemma ip_sym N f g : ip N f g = ip N g f.
  Proof. unfold ip. apply rsum_ext. intros. ring. Qed.

  Lemma ip_ext N f f' g g' : (forall i, f i = f' i) -> (forall i, g i = g' i) -> ip N f g = ip N f' g'.
  Proof. intros H H'. unfold ip. apply rsum_ext. intros. now rewrite H, H'. Qed.

  Lemma ip_scal N c f g : ip N f (fun i => (c * g i)%R) = (c * ip N f g)%R.
  Proof. unfold ip. rewrite <- rsum_scal. apply rsum_ext. intros. ring. Qed.

  Lemma adjoint N f g : 0 <= N -> supp N f -> ip (N + 1) (low f) g = ip N f (up N g).
  Proof.
    intros HN Hf. unfold ip. replace (Z.to_nat (N + 1 + 1)) with (S (Z.to_nat (N + 1))) by lia.
    rewrite (rsum_ext _ (fun i => ((W (N + 1) i * f (i - 1)%Z * g i) + (W (N + 1) i * f i * g i))%R))
      by (intros; unfold low; ring).
    rewrite rsum_plus. rewrite rsum_front.
    rewrite (Hf (0 - 1)) by lia.
    cbn [rsum]. rewrite (Hf (Z.of_nat (Z.to_nat (N + 1)))) by lia.
    rewrite (rsum_ext (fun i => (W N i * f i * up N g i)%R)
      (fun i => ((W (N + 1) (i + 1) * f i * g (i + 1)%Z) + (W (N + 1) i * f i * g i))%R)).
    - rewrite rsum_plus.
      rewrite (rsum_ext (fun k => (W (N + 1) (k + 1) * f (k + 1 - 1)%Z * g (k + 1)%Z)%R)
        (fun i => (W (N + 1) (i + 1) * f i * g (i + 1)%Z)%R))
        by (intros; now rewrite Z.add_simpl_r).
      ring.
    - intros i Hi. rewrite W_first, W_second by lia. unfold up. ring.
  Qed.

  Lemma commutator N f i :
    up N (low f) i = (low (up (N - 1) f) i + IZR (j1 + j2 - 2 * N) * f i)%R.
  Proof.
    unfold up, low. replace (i + 1 - 1) with i by ring. replace (i - 1 + 1) with i by ring.
    repeat rewrite ?mult_IZR, ?plus_IZR, ?minus_IZR. ring.
  Qed.

  (** ** Highest states and their descendants *)

  Definition top (p u : Z) : R :=
    (sg u * fac (j1 - u) * fac (j2 - (p - u)) * rf u * rf (p - u))%R.

  Lemma top_supp p : supp p (top p).
  Proof. intros i Hi. unfold top. destruct Hi; [rewrite (rf_neg i) by lia|rewrite (rf_neg (p - i)) by lia]; ring. Qed.

  Lemma top_highest p i : 0 <= p -> p <= j1 -> p <= j2 -> up (p - 1) (top p) i = 0%R.
  Proof.
    intros Hp H1 H2. unfold up, top. rewrite sg_succ, !mult_IZR.
    replace (p - 1 - i + 1) with (p - i) by ring.
    replace (p - (i + 1)) with (p - i - 1) by ring.
    replace (j2 - (p - 1 - i)) with (j2 - (p - i) + 1) by ring.
    replace (j2 - (p - i - 1)) with (j2 - (p - i) + 1) by ring.
    rewrite (rf_pred (p - i)).
    assert (E : rf i = (IZR (i + 1) * rf (i + 1))%R).
    { rewrite <- rf_pred. f_equal. ring. }
    rewrite E.
    destruct (Z_lt_dec i 0).
    - destruct (Z.eq_dec i (-1)) as [Ei|];
        [replace (IZR (i + 1)) with 0%R by (replace (i + 1) with 0 by lia; reflexivity); ring|].
      rewrite (rf_neg (i + 1)) by lia. ring.
    - destruct (Z_lt_dec (p - 1) i).
      + destruct (Z.eq_dec i p) as [->|]; [replace (p - p) with 0 by ring; ring|].
        rewrite (rf_neg (p - i)) by lia. ring.
      + rewrite (fac_succ (j2 - (p - i))) by lia.
        pose proof (fac_succ (j1 - (i + 1))) as F.
        replace (j1 - (i + 1) + 1) with (j1 - i) in F by ring. rewrite F by lia. ring.
  Qed.

  Definition desc (p : Z) (k : nat) : Z -> R := Nat.iter k low (top p).

  Lemma desc_supp p k : supp (p + Z.of_nat k) (desc p k).
  Proof.
    induction k as [|k IH]; [rewrite Z.add_0_r; apply top_supp|].
    replace (p + Z.of_nat (S k)) with (p + Z.of_nat k + 1) by lia. cbn. now apply low_supp.
  Qed.

  Lemma desc_up p k i : 0 <= p -> p <= j1 -> p <= j2 ->
    up (p + Z.of_nat k) (desc p (S k)) i
    = (IZR ((Z.of_nat k + 1) * (j1 + j2 - 2 * p - Z.of_nat k)) * desc p k i)%R.
  Proof.
    intros Hp H1 H2. revert i. induction k as [|k IH]; intros i.
    - change (desc p 1) with (low (top p)). rewrite commutator, Z.add_0_r.
      unfold low at 1. rewrite !top_highest by assumption. cbn [desc Nat.iter Z.of_nat].
      replace ((0 + 1) * (j1 + j2 - 2 * p - 0)) with (j1 + j2 - 2 * p) by ring. cbn. lra.
    - change (desc p (S (S k))) with (low (desc p (S k))). rewrite commutator.
      unfold low at 1. replace (p + Z.of_nat (S k) - 1) with (p + Z.of_nat k) by lia.
      rewrite !IH. change (desc p (S k) i) with (desc p k (i - 1)%Z + desc p k i)%R.
      rewrite !Nat2Z.inj_succ. unfold Z.succ.
      repeat rewrite ?mult_IZR, ?plus_IZR, ?minus_IZR. ring.
  Qed.

  Lemma ip_step p k p' k' : 0 <= p -> 0 <= p' -> p' <= j1 -> p' <= j2 ->
    p + Z.of_nat k = p' + Z.of_nat k' ->
    ip (p + Z.of_nat (S k)) (desc p (S k)) (desc p' (S k'))
    = (IZR ((Z.of_nat k' + 1) * (j1 + j2 - 2 * p' - Z.of_nat k'))
       * ip (p + Z.of_nat k) (desc p k) (desc p' k'))%R.
  Proof.
    intros Hp Hp' H1 H2 E.
    replace (p + Z.of_nat (S k)) with (p + Z.of_nat k + 1) by lia.
    change (desc p (S k)) with (low (desc p k)).
    rewrite adjoint; [|lia|apply desc_supp].
    rewrite (ip_ext _ _ (desc p k) _
      (fun i => (IZR ((Z.of_nat k' + 1) * (j1 + j2 - 2 * p' - Z.of_nat k')) * desc p' k' i)%R)).
    - apply ip_scal.
    - reflexivity.
    - intros i. rewrite E. now apply desc_up.
  Qed.

  (** Different total angular momenta are orthogonal. *)
  Lemma ip_orthogonal p k p' k' : 0 <= p -> p < p' -> p' <= j1 -> p' <= j2 ->
    p + Z.of_nat k = p' + Z.of_nat k' ->
    ip (p + Z.of_nat k) (desc p k) (desc p' k') = 0%R.
  Proof.
    intros Hp Hlt H1 H2. revert k. induction k' as [|k' IH]; intros k E.
    - destruct k as [|k]; [lia|].
      replace (p + Z.of_nat (S k)) with (p + Z.of_nat k + 1) by lia.
      change (desc p (S k)) with (low (desc p k)).
      rewrite adjoint; [|lia|apply desc_supp].
      unfold ip. apply rsum_zero. intros i Hi.
      change (desc p' 0) with (top p'). replace (p + Z.of_nat k) with (p' - 1) by lia.
      rewrite top_highest by lia. ring.
    - destruct k as [|k]; [lia|]. rewrite ip_step by lia. rewrite IH by lia. ring.
  Qed.

  Lemma ip_norm p k : 0 <= p -> p <= j1 -> p <= j2 -> Z.of_nat k <= j1 + j2 - 2 * p ->
    (ip (p + Z.of_nat k) (desc p k) (desc p k) * fac (j1 + j2 - 2 * p - Z.of_nat k)
     = fac (Z.of_nat k) * fac (j1 + j2 - 2 * p) * ip p (top p) (top p))%R.
  Proof.
    intros Hp H1 H2. induction k as [|k IH]; intros Hk.
    - change (Z.of_nat 0) with 0. change (desc p 0) with (top p).
      rewrite Z.add_0_r, Z.sub_0_r, fac_0. ring.
    - rewrite ip_step by lia. specialize (IH ltac:(lia)).
      replace (j1 + j2 - 2 * p - Z.of_nat (S k)) with (j1 + j2 - 2 * p - Z.of_nat k - 1) by lia.
      set (J := j1 + j2 - 2 * p) in *.
      pose proof (fac_succ (J - Z.of_nat k - 1)) as F. rewrite Z.sub_add in F.
      rewrite F in IH by lia. rewrite Nat2Z.inj_succ. unfold Z.succ.
      rewrite fac_succ by lia. rewrite mult_IZR.
      transitivity (IZR (Z.of_nat k + 1)
        * (ip (p + Z.of_nat k) (desc p k) (desc p k) * (IZR (J - Z.of_nat k) * fac (J - Z.of_nat k - 1))))%R;
        [ring|]. rewrite IH. ring.
  Qed.

  (** Norm of the highest state. *)
  Lemma top_norm_sum p : 0 <= p -> p <= j1 -> p <= j2 ->
    ip p (top p) (top p)
    = rsum (fun u => (fac (j1 - u) * fac (j2 - p + u) * rf u * rf (p - u))%R) (Z.to_nat (p + 1)).
  Proof.
    intros Hp H1 H2. unfold ip. apply rsum_ext. intros u Hu. unfold W, top.
    replace (j2 - (p - u)) with (j2 - p + u) by ring.
    rewrite (rf_nonneg (j1 - u)), (rf_nonneg (j2 - p + u)), (rf_nonneg u), (rf_nonneg (p - u)) by lia.
    pose proof (fac_pos (j1 - u)). pose proof (fac_pos (j2 - p + u)). pose proof (fac_pos u).
    pose proof (fac_pos (p - u)).
    transitivity (sg u * sg u * (fac (j1 - u) * fac (j2 - p + u) * / fac u * / fac (p - u)))%R;
      [field; lra|]. rewrite sg_sq. ring.
  Qed.

  (** Closed form of the descendants. *)
  Definition dform (p : Z) (k : nat) (i : Z) : R :=
    rsum (fun u => (top p u * (fac (Z.of_nat k) * rf (i - u) * rf (Z.of_nat k - (i - u))))%R)
      (Z.to_nat (p + 1)).

  Lemma desc_form p k i : 0 <= p -> desc p k i = dform p k i.
  Proof.
    intros Hp. revert i. induction k as [|k IH]; intros i.
    - unfold dform. change (Z.of_nat 0) with 0. change (desc p 0 i) with (top p i).
      destruct (Z_lt_dec i 0).
      + rewrite top_supp by lia. symmetry. apply rsum_zero. intros u Hu. rewrite (rf_neg (i - u)) by lia. ring.
      + destruct (Z_lt_dec p i).
        * rewrite top_supp by lia. symmetry. apply rsum_zero. intros u Hu.
          rewrite (rf_neg (0 - (i - u))) by lia. ring.
        * rewrite (rsum_single _ _ i).
          -- replace (i - i) with 0 by ring. rewrite Z.sub_0_r, rf_nonneg, fac_0 by lia.
             field.
          -- lia.
          -- intros u Hu Hne. destruct (Z_lt_dec u i);
               [rewrite (rf_neg (0 - (i - u))) by lia|rewrite (rf_neg (i - u)) by lia]; ring.
    - change (desc p (S k) i) with (desc p k (i - 1)%Z + desc p k i)%R. rewrite !IH. unfold dform.
      rewrite <- rsum_plus. apply rsum_ext. intros u Hu.
      replace (i - 1 - u) with (i - u - 1) by ring.
      rewrite (rf_pred (i - u)). rewrite Nat2Z.inj_succ. unfold Z.succ.
      rewrite fac_succ by lia.
      replace (Z.of_nat k - (i - u - 1)) with (Z.of_nat k + 1 - (i - u)) by ring.
      replace (Z.of_nat k - (i - u)) with (Z.of_nat k + 1 - (i - u) - 1) by ring.
      rewrite rf_pred. rewrite !minus_IZR, !plus_IZR. ring.
  Qed.
End Coupling.

(** ** The Vandermonde sum *)

Lemma vandermonde q r n : 0 <= q -> 0 <= r ->
  rsum (fun u => (fac (Z.of_nat n - u + q) * fac (r + u) * rf u * rf (Z.of_nat n - u))%R) (S n)
  = (fac q * fac r * fac (q + r + 1 + Z.of_nat n) * rf (q + r + 1) * rf (Z.of_nat n))%R.
Proof.
  revert q r.
  (* V(n,q,r): recurrence V(n+1,q+1,r) relates to smaller ones; proved by the
     identity  (n + 1) V(n+1,q,r) = (q+1) V'(n,q+1,r) + (r+1) V'(n,q,r+1). *)
  induction n as [|n IH]; intros q r Hq Hr.
  - cbn [rsum Z.of_nat]. replace (0 - 0 + q) with q by ring.
    rewrite Z.add_0_r, Z.sub_0_r, !Z.add_0_r.
    rewrite (rf_nonneg 0), fac_0 by lia.
    pose proof (rf_fac (q + r + 1)) as E. specialize (E ltac:(lia)).
    transitivity (fac q * fac r * (rf (q + r + 1) * fac (q + r + 1)))%R; [rewrite E; field|field].
  - set (T := fun (m : Z) (q r u : Z) => (fac (m - u + q) * fac (r + u) * rf u * rf (m - u))%R).
    change (rsum (T (Z.of_nat (S n)) q r) (S (S n))
            = (fac q * fac r * fac (q + r + 1 + Z.of_nat (S n)) * rf (q + r + 1) * rf (Z.of_nat (S n)))%R).
    assert (IHa : rsum (T (Z.of_nat n) (q + 1) r) (S n)
      = (fac (q + 1) * fac r * fac (q + 1 + r + 1 + Z.of_nat n) * rf (q + 1 + r + 1) * rf (Z.of_nat n))%R)
      by (apply IH; lia).
    assert (IHb : rsum (T (Z.of_nat n) q (r + 1)) (S n)
      = (fac q * fac (r + 1) * fac (q + (r + 1) + 1 + Z.of_nat n) * rf (q + (r + 1) + 1) * rf (Z.of_nat n))%R)
      by (apply IH; lia).
    assert (E : (IZR (Z.of_nat (S n)) * rsum (T (Z.of_nat (S n)) q r) (S (S n))
                 = rsum (T (Z.of_nat n) (q + 1)%Z r) (S n) + rsum (T (Z.of_nat n) q (r + 1)%Z) (S n))%R).
    { rewrite <- rsum_scal.
      rewrite (rsum_ext _ (fun u =>
        ((fac (Z.of_nat (S n) - u + q) * fac (r + u) * rf u * rf (Z.of_nat (S n) - u - 1))
         + (fac (Z.of_nat (S n) - u + q) * fac (r + u) * rf (u - 1) * rf (Z.of_nat (S n) - u)))%R)).
      2: { intros u Hu. unfold T. rewrite !rf_pred, minus_IZR. ring. }
      rewrite rsum_plus. f_equal.
      - cbn [rsum]. rewrite (rf_neg (Z.of_nat (S n) - Z.of_nat (S n) - 1)) by lia.
        rewrite Rmult_0_r, Rplus_0_r. unfold T. apply (f_equal2 Rplus).
        + apply rsum_ext. intros u Hu. rewrite Nat2Z.inj_succ. unfold Z.succ.
          replace (Z.of_nat n - u + (q + 1)) with (Z.of_nat n + 1 - u + q) by ring.
          replace (Z.of_nat n + 1 - u - 1) with (Z.of_nat n - u) by ring. reflexivity.
        + rewrite Nat2Z.inj_succ. unfold Z.succ.
          replace (Z.of_nat n - Z.of_nat n + (q + 1)) with (Z.of_nat n + 1 - Z.of_nat n + q) by ring.
          replace (Z.of_nat n + 1 - Z.of_nat n - 1) with (Z.of_nat n - Z.of_nat n) by ring. reflexivity.
      - rewrite rsum_front. rewrite (rf_neg (0 - 1)) by lia. rewrite Rmult_0_r, Rmult_0_l, Rplus_0_l.
        apply rsum_ext. intros u Hu. unfold T. rewrite Nat2Z.inj_succ. unfold Z.succ.
        replace (Z.of_nat n + 1 - (u + 1) + q) with (Z.of_nat n - u + q) by ring.
        replace (r + (u + 1)) with (r + 1 + u) by ring.
        replace (u + 1 - 1) with u by ring.
        replace (Z.of_nat n + 1 - (u + 1)) with (Z.of_nat n - u) by ring. reflexivity. }
    rewrite IHa, IHb in E.
    assert (HN : (IZR (Z.of_nat (S n)) <> 0)%R) by (apply not_0_IZR; lia).
    apply (Rmult_eq_reg_l (IZR (Z.of_nat (S n)))); [|exact HN]. rewrite E.
    replace (q + 1 + r + 1 + Z.of_nat n) with (q + r + 1 + Z.of_nat (S n)) by lia.
    replace (q + (r + 1) + 1 + Z.of_nat n) with (q + r + 1 + Z.of_nat (S n)) by lia.
    replace (q + 1 + r + 1) with (q + r + 1 + 1) by ring.
    replace (q + (r + 1) + 1) with (q + r + 1 + 1) by ring.
    rewrite (fac_succ q), (fac_succ r) by lia.
    pose proof (rf_pred (q + r + 1 + 1)) as R1. rewrite Z.add_simpl_r in R1.
    pose proof (rf_pred (Z.of_nat (S n))) as R2.
    replace (Z.of_nat (S n) - 1) with (Z.of_nat n) in R2 by lia.
    rewrite R1, R2. rewrite !plus_IZR. ring.
Qed.

Lemma top_norm j1 j2 p : 0 <= p -> p <= j1 -> p <= j2 ->
  ip j1 j2 p (top j1 j2 p) (top j1 j2 p)
  = (fac (j1 - p) * fac (j2 - p) * fac (j1 + j2 - p + 1) * rf (j1 + j2 - 2 * p + 1) * rf p)%R.
Proof.
  intros Hp H1 H2. rewrite top_norm_sum by assumption.
  pose proof (vandermonde (j1 - p) (j2 - p) (Z.to_nat p) ltac:(lia) ltac:(lia)) as V.
  rewrite Z2Nat.id in V by lia.
  replace (S (Z.to_nat p)) with (Z.to_nat (p + 1)) in V by lia.
  replace (j1 - p + (j2 - p) + 1 + p) with (j1 + j2 - p + 1) in V by ring.
  replace (j1 - p + (j2 - p) + 1) with (j1 + j2 - 2 * p + 1) in V by ring.
  rewrite <- V. apply rsum_ext. intros u Hu. now replace (p - u + (j1 - p)) with (j1 - u) by ring.
Qed.
