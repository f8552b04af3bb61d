(** Proofs about Sharing.v: what the functions leave alone in memory, and what
    they compute. *)

From Coq Require Import Reals Lia ZifyBool ZifyNat.
From Verif Require Import PyBase Compat Matrix RadialOps RadialME FullOps Sharing.
Open Scope Z_scope.

(** ** Frames *)

(** Old arrays stay, new ones may come. *)
Definition ext (m m' : mem) : Prop := exists l, arrays m' = arrays m ++ l.
(** Some table refers to the array. *)
Definition owned (m : mem) (a : nat) : Prop := exists k r, tab m k = Some r /\ base r = a.
(** The tables come to refer to new arrays only; the calls in [u] are left. *)
Record frame (u : key -> bool) (m m' : mem) : Prop := mkFrame {
  fr_ext : ext m m';
  fr_own : forall a, owned m' a -> owned m a \/ (length (arrays m) <= a)%nat;
  fr_left : forall k, u k = true -> tab m' k = tab m k }.

(** A reference that was in a table at [m], or to an array newer than [m]. *)
Definition from (m : mem) (r : ref) : Prop := owned m (base r) \/ (length (arrays m) <= base r)%nat.

Definition okm {A} (u : key -> bool) (m : mem) (f : hm A) (Q : A -> Prop) : Prop :=
  frame u m (snd (f m)) /\ forall a, fst (f m) = Ok a -> Q a.

Lemma ext_refl m : ext m m.
Proof. exists []. now rewrite app_nil_r. Qed.
Lemma ext_trans m1 m2 m3 : ext m1 m2 -> ext m2 m3 -> ext m1 m3.
Proof. intros [l E] [l' E']. exists (l ++ l'). rewrite E', E. now rewrite app_assoc. Qed.
Lemma ext_len m m' : ext m m' -> (length (arrays m) <= length (arrays m'))%nat.
Proof. intros [l ->]. rewrite app_length. lia. Qed.
Lemma frame_refl u m : frame u m m.
Proof. split; [apply ext_refl|auto|auto]. Qed.
Lemma frame_trans u m1 m2 m3 : frame u m1 m2 -> frame u m2 m3 -> frame u m1 m3.
Proof.
  intros [X O L] [X' O' L']. split.
  - eapply ext_trans; eauto.
  - intros a H. destruct (O' a H) as [H'|H']; [auto|]. apply ext_len in X. right. lia.
  - intros k H. now rewrite L', L.
Qed.
Lemma from_back u m m' r : frame u m m' -> from m' r -> from m r.
Proof.
  intros F [H|H]; [now apply (fr_own _ _ _ F)|]. right. pose proof (ext_len _ _ (fr_ext _ _ _ F)). lia.
Qed.

Lemma okm_bind {A B} u m (f : hm A) (g : A -> hm B) Q Q' : okm u m f Q ->
  (forall a m', f m = (Ok a, m') -> frame u m m' -> Q a -> okm u m' (g a) Q') ->
  okm u m (hbind f g) Q'.
Proof.
  intros [F H] G. unfold okm, hbind. destruct (f m) as [[a|e] m'] eqn:E; cbn [fst snd] in *.
  - destruct (G a m' eq_refl F (H a eq_refl)) as [F' H']. split; [eapply frame_trans; eauto|assumption].
  - split; [assumption|discriminate].
Qed.
Lemma okm_weaken {A} u m (f : hm A) (Q Q' : A -> Prop) : (forall a, Q a -> Q' a) -> okm u m f Q -> okm u m f Q'.
Proof. intros W [F H]. split; auto. Qed.
Lemma okm_lift {A} u m (x : res A) : okm u m (hlift x) (fun _ => True).
Proof. split; [apply frame_refl|auto]. Qed.
Lemma okm_read u m r : okm u m (read r) (fun _ => True).
Proof. split; [apply frame_refl|auto]. Qed.
Lemma okm_ret {A} u m (a : A) (Q : A -> Prop) : Q a -> okm u m (hret a) Q.
Proof. intros H. split; [apply frame_refl|]. intros a' E. cbn in E. injection E as <-. assumption. Qed.
Lemma okm_raise {A} u m e (Q : A -> Prop) : okm u m (hlift (Raise e)) Q.
Proof. split; [apply frame_refl|]. discriminate. Qed.
Lemma frame_alloc u m M : frame u m (mkMem (arrays m ++ [M]) (tab m)).
Proof. split; [exists [M]; reflexivity|auto|reflexivity]. Qed.
Lemma okm_alloc u m M : okm u m (alloc M) (from m).
Proof.
  split; [apply frame_alloc|]. intros r E. cbn in E. injection E as <-. right. cbn [base]. lia.
Qed.
(** Steps that do not matter for the result. *)
Lemma okm_lift_bind {A B} u m (x : res A) (g : A -> hm B) Q : (forall a, okm u m (g a) Q) -> okm u m (hbind (hlift x) g) Q.
Proof. intros H. unfold okm, hbind, hlift. destruct x as [a|e]; [apply H|]. split; [apply frame_refl|discriminate]. Qed.
Lemma okm_read_bind {B} u m r (g : mat R -> hm B) Q : (forall M, okm u m (g M) Q) -> okm u m (hbind (read r) g) Q.
Proof. intros H. apply H. Qed.
Lemma okm_mul u m r1 r2 : okm u m (mulH r1 r2) (from m).
Proof. unfold mulH. do 2 (apply okm_read_bind; intros). apply okm_lift_bind. intros. apply okm_alloc. Qed.
Lemma okm_scale u m c r : okm u m (scaleH c r) (from m).
Proof. unfold scaleH. apply okm_read_bind; intros. apply okm_alloc. Qed.

Lemma learn_owned k r m a : owned (learn k r m) a -> owned m a \/ base r = a.
Proof.
  intros (k' & r' & E & B). cbn in E. destruct (key_eq_dec k' k); [right; congruence|left; now exists k', r'].
Qed.
Lemma okm_memo u m k f : u k = false -> okm u m f (from m) -> okm u m (memo k f) (from m).
Proof.
  intros U [F H]. unfold okm, memo. destruct (tab m k) as [r|] eqn:E.
  - split; [apply frame_refl|]. cbn. intros r' [= <-]. left. exists k, r. auto.
  - destruct (f m) as [[r|e] m']; cbn [fst snd] in *.
    + split; [|intros r' [= <-]; apply H; reflexivity]. destruct F as [X O L]. split; [assumption| |].
      * intros a Ha. apply learn_owned in Ha. destruct Ha as [Ha|<-]; [auto|]. apply (H r eq_refl).
      * intros k' U'. cbn. destruct (key_eq_dec k' k); [congruence|auto].
    + split; [assumption|discriminate].
Qed.

(** A product scaled in place is a new array. *)
Lemma put_last {A} (l : list A) x y : put (l ++ [x]) (length l) y = l ++ [y].
Proof. induction l as [|z l IH]; cbn; [reflexivity|now rewrite IH]. Qed.
Lemma nth_last {A} (l : list A) x d : nth (length l) (l ++ [x]) d = x.
Proof. rewrite app_nth2 by lia. now rewrite Nat.sub_diag. Qed.
Definition scaled_mulH (r1 r2 : ref) (c : R) : hm ref :=
  mem* M <- read r1 ;; mem* N <- read r2 ;; mem* P <- hlift (matmul M N) ;; alloc (mscale c P).
Lemma scaled_mul r1 r2 c m : (mem* Mat <- mulH r1 r2 ;; mem! imulH Mat c ;; hret Mat) m = scaled_mulH r1 r2 c m.
Proof.
  unfold scaled_mulH, mulH, imulH, hbind, read, hlift, hret, alloc, assign_array.
  destruct (matmul (content (arrays m) r1) (content (arrays m) r2)) as [P|e]; [|reflexivity].
  cbn [arrays tab content base]. now rewrite nth_last, put_last.
Qed.
Lemma okm_scaled_mul u m r1 r2 c : okm u m (scaled_mulH r1 r2 c) (from m).
Proof. unfold scaled_mulH. do 2 (apply okm_read_bind; intros). apply okm_lift_bind. intros. apply okm_alloc. Qed.
Lemma okm_ext {A} u m (f g : hm A) Q : f m = g m -> okm u m g Q -> okm u m f Q.
Proof. unfold okm. now intros ->. Qed.
Lemma okm_back {A} u m m' (f : hm A) (P : A -> ref -> Prop) : frame u m m' ->
  okm u m' f (fun a => forall r, P a r -> from m' r) -> okm u m' f (fun a => forall r, P a r -> from m r).
Proof. intros F. apply okm_weaken. intros a H r Hr. exact (from_back _ _ _ _ F (H r Hr)). Qed.
Lemma okm_from u m m' f : frame u m m' -> okm u m' f (from m') -> okm u m' f (from m).
Proof. intros F. apply okm_weaken. intros r. now apply (from_back u). Qed.

(** Find the frame that goes with the reference. *)
Ltac back := match goal with F : frame _ ?m ?m', H : from ?m' ?r |- from ?m ?r => exact (from_back _ _ _ _ F H) end.

Definition all_from (m : mem) (o : option ref) : Prop := match o with Some r => from m r | None => True end.

Lemma bind_Ok_r {A} (x : res A) : bind x (fun a => Ok a) = x.
Proof. now destruct x. Qed.

Lemma put_app {A} (l l' : list A) a x : (length l <= a)%nat -> put (l ++ l') a x = l ++ put l' (a - length l) x.
Proof.
  revert a. induction l as [|y l IH]; intros a H; cbn in *; [now rewrite Nat.sub_0_r|].
  destruct a as [|a]; [lia|]. cbn. now rewrite IH by lia.
Qed.
Lemma put_length {A} (l : list A) a x : length (put l a x) = length l.
Proof. revert a. induction l as [|y l IH]; intros [|a]; cbn; auto. Qed.
Lemma nth_put {A} (l : list A) a b x d : a <> b -> nth b (put l a x) d = nth b l d.
Proof. revert a b. induction l as [|y l IH]; intros [|a] [|b] H; cbn; try congruence; auto. Qed.
Lemma nth_put_same {A} (l : list A) a x d : (a < length l)%nat -> nth a (put l a x) d = x.
Proof. revert a. induction l as [|y l IH]; intros [|a] H; cbn in *; try lia; auto. apply IH. lia. Qed.
Lemma content_put h a X r : base r <> a -> content (put h a X) r = content h r.
Proof. induction r as [b|r IH]; cbn; intros H; [apply nth_put; congruence|now rewrite IH]. Qed.
Lemma content_app h l r : (base r < length h)%nat -> content (h ++ l) r = content h r.
Proof. induction r as [a|r IH]; cbn; intros H; [now apply app_nth1|now rewrite IH]. Qed.

Section Facts.
  Variable Gam : R -> R.
  Variables Matrix_sqrt Matrix_sqrtInv : mat R -> res (mat R).
  Let Rep := Rep_elem Gam Matrix_sqrt Matrix_sqrtInv.
  Let elemH := elemH Gam Matrix_sqrt Matrix_sqrtInv.
  Let factorH := factorH Gam Matrix_sqrt Matrix_sqrtInv.
  Let loopH := loopH Gam Matrix_sqrt Matrix_sqrtInv.
  Let oddH := oddH Gam Matrix_sqrt Matrix_sqrtInv.
  Let bSDS_bodyH := bSDS_bodyH Gam Matrix_sqrt Matrix_sqrtInv.
  Let RepRadial_bS_DSH := RepRadial_bS_DSH Gam Matrix_sqrt Matrix_sqrtInv.
  Let representationH := representationH Gam Matrix_sqrt Matrix_sqrtInv.
  Let shfs_loopH := shfs_loopH Gam Matrix_sqrt Matrix_sqrtInv.
  Let RepRadialshfs_ProdH := RepRadialshfs_ProdH Gam Matrix_sqrt Matrix_sqrtInv.
  Let RepRadial_Prod_commonH := RepRadial_Prod_commonH Gam Matrix_sqrt Matrix_sqrtInv.
  Let RepRadial_ProdH := RepRadial_ProdH Gam Matrix_sqrt Matrix_sqrtInv.
  Let RepRadial_Prod_remH := RepRadial_Prod_remH Gam Matrix_sqrt Matrix_sqrtInv.
  Let LC_loopH := LC_loopH Gam Matrix_sqrt Matrix_sqrtInv.
  Let RepRadial_LC_commonH := RepRadial_LC_commonH Gam Matrix_sqrt Matrix_sqrtInv.
  Let RepRadial_LCH := RepRadial_LCH Gam Matrix_sqrt Matrix_sqrtInv.
  Let RepRadial_LC_remH := RepRadial_LC_remH Gam Matrix_sqrt Matrix_sqrtInv.
  Let recallH := recallH Gam Matrix_sqrt Matrix_sqrtInv.
  Let insideH := insideH Gam Matrix_sqrt Matrix_sqrtInv.

  (** The calls of [RepRadial_Prod_rem] and [RepRadial_LC_rem]. *)
  Definition top (k : key) : bool := match k with KProd _ _ _ _ _ _ _ | KLC _ _ _ _ _ _ _ => true | _ => false end.
  (** Nothing promised. *)
  Definition nokey (k : key) : bool := false.

  Section Low.
    Variable u : key -> bool.
    Hypothesis U : forall k, top k = false -> u k = false.

    Lemma okm_elem m e l n0 n1 : okm u m (elemH e l n0 n1) (from m).
    Proof.
      assert (B : forall e m, okm u m (builtH Gam Matrix_sqrt Matrix_sqrtInv e l n0 n1) (from m)).
      { intros e0 m0. apply okm_memo; [now apply U|]. apply okm_lift_bind. intros M. apply okm_alloc. }
      destruct e; try apply B; try apply okm_alloc.
      unfold elemH, Sharing.elemH. apply okm_memo; [now apply U|].
      eapply okm_bind; [apply B|]. intros a m' _ F _. apply okm_read_bind. intros. apply okm_lift_bind. intros.
      apply (okm_from _ _ _ _ F). apply okm_alloc.
    Qed.

    Lemma okm_factor m an l n0 n1 f : okm u m (factorH an l n0 n1 f) (from m).
    Proof.
      unfold factorH, Sharing.factorH. destruct (f_elems f) as [|[e1 o1] [|[e2 o2] [|? ?]]]; try apply okm_raise.
      - eapply okm_bind; [apply okm_elem|]. intros r m' _ F Hr. destruct (f_pow f =? 0).
        + apply okm_ret. assumption.
        + apply (okm_from _ _ _ _ F). apply okm_scale.
      - eapply okm_bind; [apply okm_elem|]. intros r m1 _ F1 Hr.
        eapply okm_bind; [apply okm_elem|]. intros r2 m2 _ F2 Hr2.
        apply (okm_from _ _ _ _ (frame_trans _ _ _ _ F1 F2)).
        eapply okm_ext; [apply scaled_mul|]. apply okm_scaled_mul.
    Qed.

    Lemma okm_lmul m m' r o : frame u m m' -> okm u m' (lmulH r o) (all_from m).
    Proof.
      intros F. destruct o as [p|]; [|apply okm_raise]. unfold lmulH.
      eapply okm_bind; [apply okm_mul|]. intros q m2 _ F2 Hq. apply okm_ret. cbn. back.
    Qed.

    Lemma okm_loop fuel : forall m m' an l n0 n1 K n lamX i run s prod, frame u m m' -> all_from m prod ->
      okm u m' (loopH fuel an l n0 n1 K n lamX i run s prod) (fun x => all_from m (fst x)).
    Proof.
      induction fuel as [|fuel IH]; intros m m' an l n0 n1 K n lamX i run s prod F Hp;
        unfold loopH; cbn [Sharing.loopH]; destruct (0 <? i); try apply okm_raise; try (apply okm_ret; assumption).
      apply okm_lift_bind. intros [f imm].
      eapply okm_bind; [apply okm_factor|]. intros r m1 _ F1 Hr.
      pose proof (frame_trans _ _ _ _ F F1) as F01.
      eapply okm_bind with (Q := all_from m).
      - destruct ((i =? n) && (0 <=? lamX)).
        + apply okm_ret. cbn. back.
        + apply okm_lmul. assumption.
      - intros o m2 _ F2 Ho. apply IH; [|assumption]. eapply frame_trans; eauto.
    Qed.

    Lemma okm_odd m l R_ n0 n1 : okm u m (oddH l R_ n0 n1) (from m).
    Proof.
      unfold oddH, Sharing.oddH. destruct (R_ <? 0).
      all: eapply okm_bind; [apply okm_elem|]; intros r m1 _ F1 Hr.
      all: eapply okm_bind; [apply okm_elem|]; intros r2 m2 _ F2 Hr2.
      all: pose proof (frame_trans _ _ _ _ F1 F2) as F12.
      all: eapply okm_bind; [apply okm_mul|]; intros r3 m3 _ F3 Hr3.
      all: match goal with |- context [if ?b then _ else _] => destruct b end.
      all: try (apply okm_ret; back).
      all: eapply okm_bind; [apply okm_elem|]; intros r4 m4 _ F4 Hr4.
      all: apply (okm_from _ _ _ _ (frame_trans _ _ _ _ F12 (frame_trans _ _ _ _ F3 F4))); apply okm_mul.
    Qed.

    Lemma okm_bSDS_body m K T an l R_ n0 n1 : okm u m (bSDS_bodyH K T an l R_ n0 n1) (from m).
    Proof.
      unfold bSDS_bodyH, Sharing.bSDS_bodyH.
      destruct (Rle_dec l 0); [apply okm_raise|]. destruct (Rle_dec (l + IZR R_) 0); [apply okm_raise|].
      destruct ((K =? 0) && (T =? 0) && is_odd R_); [apply okm_odd|].
      apply okm_lift_bind. intros splits. cbv zeta. apply okm_lift_bind. intros _.
      set (lamX := if Z.abs K + T <? zlen splits then nth 0 splits 0 else 0).
      set (s := if Z.abs K + T <? zlen splits then tl splits else splits).
      eapply okm_bind with (Q := all_from m).
      { destruct (lamX <? 0); [|now apply okm_ret]. apply okm_lift_bind. intros _.
        eapply okm_bind; [apply okm_elem|]. intros r m1 _ F1 Hr. apply okm_ret. assumption. }
      intros p0 m1 _ F1 Hp0.
      eapply okm_bind; [apply (okm_loop _ m m1 _ _ _ _ _ _ _ _ _ _ _ F1 Hp0)|]. intros [p1 run1] m2 _ F2 Hp1. cbn [fst] in Hp1.
      pose proof (frame_trans _ _ _ _ F1 F2) as F02.
      eapply okm_bind with (Q := all_from m).
      { destruct (0 <? lamX); [|now apply okm_ret]. apply okm_lift_bind. intros _.
        eapply okm_bind; [apply okm_elem|]. intros r m3 _ F3 Hr. destruct (0 <? Z.abs K + T).
        - apply okm_lmul. eapply frame_trans; eauto.
        - apply okm_ret. cbn. back. }
      intros p2 m3 _ F3 Hp2. pose proof (frame_trans _ _ _ _ F02 F3) as F03.
      eapply okm_bind with (Q := all_from m).
      { destruct ((Z.abs K + T =? 0) && (lamX =? 0)); [|now apply okm_ret].
        eapply okm_bind; [apply okm_elem|]. intros r m4 _ F4 Hr. apply okm_ret. cbn. back. }
      intros [p|] m4 _ F4 Hp; [now apply okm_ret|apply okm_raise].
    Qed.

    Lemma okm_representation m op an l R_ n0 n1 : okm u m (representationH op an l R_ n0 n1) (from m).
    Proof.
      destruct op as [K T|s]; unfold representationH, Sharing.representationH.
      - apply okm_memo; [now apply U|]. apply okm_bSDS_body.
      - apply okm_lift_bind. intros _. apply okm_elem.
    Qed.

    Lemma okm_shfs_loop rops : forall rshfs m m' an l run n0 n1 prod, frame u m m' -> all_from m prod ->
      okm u m' (shfs_loopH rops rshfs an l run n0 n1 prod) (all_from m).
    Proof.
      induction rops as [|op rops IH]; intros rshfs m m' an l run n0 n1 prod F Hp; unfold shfs_loopH; cbn [Sharing.shfs_loopH].
      - now apply okm_ret.
      - destruct rshfs as [|R_ rshfs]; [apply okm_raise|].
        eapply okm_bind; [apply okm_representation|]. intros r m1 _ F1 Hr.
        pose proof (frame_trans _ _ _ _ F F1) as F01.
        eapply okm_bind with (Q := from m).
        + destruct prod as [p|]; [|apply okm_ret; back]. apply (okm_from _ _ _ _ F01). apply okm_mul.
        + intros q m2 _ F2 Hq. apply IH; [eapply frame_trans; eauto|assumption].
    Qed.

    Lemma okm_shfs m ops an l sh n0 n1 : okm u m (RepRadialshfs_ProdH ops an l sh n0 n1) (from m).
    Proof.
      unfold RepRadialshfs_ProdH, Sharing.RepRadialshfs_ProdH. apply okm_memo; [now apply U|].
      destruct ops as [|op ops]; [apply okm_alloc|].
      eapply okm_bind; [apply (okm_shfs_loop _ _ m m); [apply frame_refl|exact I]|].
      intros [p|] m1 _ F1 Hp; [now apply okm_ret|apply okm_raise].
    Qed.

    Lemma okm_Prod_common m w an l v n0 n1 lap : okm u m (RepRadial_Prod_commonH w an l v n0 n1 lap) (from m).
    Proof.
      unfold RepRadial_Prod_commonH, Sharing.RepRadial_Prod_commonH.
      destruct (Rle_dec l 0); [apply okm_raise|]. destruct (Rle_dec (l + IZR v) 0); [apply okm_raise|].
      apply okm_lift_bind. intros ops. apply okm_lift_bind. intros sh. destruct (insert_id ops sh) as [ops' sh']. cbv zeta.
      eapply okm_bind; [apply okm_shfs|]. intros r m1 _ F1 Hr. destruct (lap =? 0); now apply okm_ret.
    Qed.
  End Low.

  (** The calls of [RepRadial_LC_rem]. *)
  Definition lc_key (k : key) : bool := match k with KLC _ _ _ _ _ _ _ => true | _ => false end.
  Lemma lc_key_left k : top k = false -> lc_key k = false.
  Proof. now destruct k. Qed.
  Lemma frame_weaken u m m' : frame u m m' -> frame nokey m m'.
  Proof. intros [X O _]. split; [exact X|exact O|discriminate]. Qed.
  Lemma top_left k : top k = false -> top k = false.
  Proof. auto. Qed.
  Lemma nokey_left k : top k = false -> nokey k = false.
  Proof. auto. Qed.

  Lemma okm_Prod_rem m w an l v n0 n1 lap : okm lc_key m (RepRadial_Prod_remH w an l v n0 n1 lap) (from m).
  Proof. apply okm_memo; [reflexivity|]. apply okm_Prod_common. apply lc_key_left. Qed.


  Lemma frame_put u m0 m a X : frame u m0 m -> (length (arrays m0) <= a)%nat -> frame u m0 (mkMem (put (arrays m) a X) (tab m)).
  Proof.
    intros [[l E] O L] H. split; [|exact O|exact L]. exists (put l (a - length (arrays m0)) X). cbn [arrays]. rewrite E.
    now apply put_app.
  Qed.
  Lemma iadd_cases r1 r2 m : iaddH r1 r2 m = (Raise ValueError, m) \/
    exists X, iaddH r1 r2 m = (Ok tt, mkMem (put (arrays m) (base r1) X) (tab m)).
  Proof.
    unfold iaddH, hbind, read. destruct (_ && _); [right|left; reflexivity].
    exists (madd (content (arrays m) r1) (content (arrays m) r2)). reflexivity.
  Qed.

  (** The sum is a new array. *)
  Definition new (m : mem) (r : ref) : Prop := (length (arrays m) <= base r)%nat.
  Definition okp (m0 : mem) (x : res ref * mem) : Prop :=
    frame lc_key m0 (snd x) /\ forall r, fst x = Ok r -> new m0 r.

  Lemma okp_LC_loop rest : forall m0 m an l v n0 n1 lap r, frame lc_key m0 m -> new m0 r ->
    okp m0 (LC_loopH rest an l v n0 n1 lap r m).
  Proof.
    induction rest as [|[c w] rest IH]; intros m0 m an l v n0 n1 lap r F P; unfold LC_loopH; cbn [Sharing.LC_loopH].
    { split; [assumption|]. cbn. intros r' [= <-]. assumption. }
    unfold hbind at 1.
    destruct (okm_Prod_rem m w an l v n0 n1 lap) as [F1 _]. unfold RepRadial_Prod_remH in F1.
    destruct (Sharing.RepRadial_Prod_remH _ _ _ w an l v n0 n1 lap m) as [[rep|e] m1] eqn:E1; cbn [fst snd] in F1.
    2: { split; [eapply frame_trans; eauto|discriminate]. }
    pose proof (frame_trans _ _ _ _ F F1) as F01.
    unfold hbind at 1. unfold scaleH at 1. unfold hbind at 1, read, alloc.
    set (m2 := mkMem (arrays m1 ++ [mscale c (content (arrays m1) rep)]) (tab m1)).
    pose proof (frame_alloc lc_key m1 (mscale c (content (arrays m1) rep))) as F2. fold m2 in F2.
    pose proof (frame_trans _ _ _ _ F01 F2) as F02.
    unfold hbind at 1.
    destruct (iadd_cases r (Whole (length (arrays m1))) m2) as [->|[X ->]].
    { split; [assumption|discriminate]. }
    apply IH; [|assumption]. apply frame_put; assumption.
  Qed.

  Lemma okp_LC_common m ops an l v n0 n1 lap : okp m (RepRadial_LC_commonH ops an l v n0 n1 lap m).
  Proof.
    destruct ops as [|[c w] rest]; unfold RepRadial_LC_commonH; cbn [Sharing.RepRadial_LC_commonH].
    { split; [apply frame_alloc|]. cbn. intros r [= <-]. unfold new. cbn. lia. }
    unfold hbind at 1.
    destruct (okm_Prod_rem m w an l v n0 n1 lap) as [F1 _]. unfold RepRadial_Prod_remH in F1.
    destruct (Sharing.RepRadial_Prod_remH _ _ _ w an l v n0 n1 lap m) as [[rep|e] m1] eqn:E1; cbn [fst snd] in F1.
    2: { split; [assumption|discriminate]. }
    unfold hbind at 1. unfold scaleH at 1. unfold hbind at 1, read, alloc.
    apply okp_LC_loop.
    - eapply frame_trans; [exact F1|]. apply frame_alloc.
    - unfold new. cbn [base]. apply ext_len, (fr_ext _ _ _ F1).
  Qed.

  Lemma frame_forget u p m m' : (forall k, u k = true -> p k = false) -> frame u m m' ->
    frame u m (snd (forget p m')).
  Proof.
    intros H [X O L]. split; [exact X| |].
    - intros a (k & r & E & B). apply O. cbn in E. destruct (p k); [discriminate|]. now exists k, r.
    - intros k K. cbn. rewrite H by assumption. now apply L.
  Qed.

  Lemma okp_LC m ops an l v n0 n1 lap : okp m (RepRadial_LCH ops an l v n0 n1 lap m).
  Proof.
    unfold RepRadial_LCH, Sharing.RepRadial_LCH, hbind at 1.
    destruct (okp_LC_common m ops an l v n0 n1 lap) as [F1 H1]. unfold RepRadial_LC_commonH in F1, H1.
    destruct (Sharing.RepRadial_LC_commonH _ _ _ ops an l v n0 n1 lap m) as [[r|e] m1]; cbn [fst snd] in *.
    - split; [|exact H1]. apply (frame_forget lc_key cleared_by_LC); [intros []; cbn; congruence|assumption].
    - split; [assumption|discriminate].
  Qed.
  Lemma okm_Prod m w an l v n0 n1 lap : okm top m (RepRadial_ProdH w an l v n0 n1 lap) (from m).
  Proof.
    unfold okm. rewrite (surjective_pairing (RepRadial_ProdH w an l v n0 n1 lap m)).
    change (RepRadial_ProdH w an l v n0 n1 lap m) with
      (match Sharing.RepRadial_Prod_commonH Gam Matrix_sqrt Matrix_sqrtInv w an l v n0 n1 lap m with
       | (Ok r, m') => (Ok r, snd (forget cleared_by_Prod m')) | (Raise e, m') => (Raise e, m') end).
    destruct (okm_Prod_common top top_left m w an l v n0 n1 lap) as [F1 H1]. unfold RepRadial_Prod_commonH in F1, H1.
    destruct (Sharing.RepRadial_Prod_commonH _ _ _ w an l v n0 n1 lap m) as [[r|e] m1]; cbn [fst snd] in *.
    - split; [|exact H1]. apply (frame_forget top cleared_by_Prod); [intros []; cbn; congruence|assumption].
    - split; [assumption|discriminate].
  Qed.

  Lemma okm_recall m k : okm nokey m (recallH k) (from m).
  Proof.
    destruct k; cbn [Sharing.recallH].
    - apply okm_elem, nokey_left.
    - apply okm_memo; [reflexivity|]. apply okm_bSDS_body, nokey_left.
    - apply okm_shfs, nokey_left.
    - destruct (okm_Prod_rem m rbs_op anorm lambdaa lambda_var nu_min nu_max nu_lap) as [F H]. split; [apply (frame_weaken _ _ _ F)|exact H].
    - apply okm_memo; [reflexivity|]. destruct (okp_LC_common m rlc_op anorm lambdaa lambda_var nu_min nu_max nu_lap) as [F H].
      split; [apply (frame_weaken _ _ _ F)|]. intros r E. right. apply H. assumption.
  Qed.
  Lemma frame_inside calls : forall m, frame nokey m (snd (insideH calls m)).
  Proof.
    induction calls as [|k calls IH]; intros m; unfold insideH; cbn [Sharing.insideH]; [apply frame_refl|].
    unfold hbind. destruct (okm_recall m k) as [F _]. unfold recallH in F.
    destruct (Sharing.recallH _ _ _ k m) as [[r|e] m1]; cbn [fst snd] in *; [|assumption].
    eapply frame_trans; [exact F|]. apply IH.
  Qed.

  (** ** Values

      The functions without memory: matrices instead of references. *)
  Definition factorV (anorm lambdaa : R) (nu_min nu_max : Z) (f : factor) : res (mat R) :=
    match f_elems f with
    | [(e, o)] =>
        let* M := Rep e (lambdaa + IZR o) nu_min nu_max in
        if f_pow f =? 0 then Ok M else Ok (mscale (powerRZ anorm (f_pow f)) M)
    | [(e1, o1); (e2, o2)] =>
        let* M := Rep e1 (lambdaa + IZR o1) nu_min nu_max in
        let* N := Rep e2 (lambdaa + IZR o2) nu_min nu_max in
        let* P := matmul M N in
        Ok (mscale (powerRZ anorm (f_pow f)) P)
    | _ => Raise UnboundLocalError
    end.
  Definition lmulV (M : mat R) (prod : option (mat R)) : res (option (mat R)) :=
    match prod with
    | None => Raise UnboundLocalError
    | Some p => let* q := matmul M p in Ok (Some q)
    end.
  Fixpoint loopV (fuel : nat) (anorm lambdaa : R) (nu_min nu_max K n lamX i run : Z) (s : list Z) (prod : option (mat R))
    : res (option (mat R) * Z) :=
    if 0 <? i then
      match fuel with
      | O => Raise IndexError
      | S fuel' =>
          let* (f, imm) := bsds_pick K i run s in
          let* M := factorV anorm lambdaa nu_min nu_max f in
          let* prod' := (if (i =? n) && (0 <=? lamX) then Ok (Some M) else lmulV M prod) in
          loopV fuel' anorm lambdaa nu_min nu_max K n lamX (i - imm) (run + nth (Z.to_nat (i - 1)) s 0) s prod'
      end
    else Ok (prod, run).
  Definition oddV (lambdaa : R) (R_ nu_min nu_max : Z) : res (mat R) :=
    if R_ <? 0 then
      let* p := Rep M_b2_sqrt (lambdaa + IZR R_) nu_min nu_max in
      let* M := Rep M_bm_ml (lambdaa + IZR (R_ + 1)) nu_min nu_max in
      let* p := matmul p M in
      if R_ <? -1 then
        let* M := Rep (M_id_ml ((- (R_ + 1)) / 2)) (lambdaa + IZR 0) nu_min nu_max in
        matmul p M
      else Ok p
    else
      let* p := Rep M_b2_sqrt (lambdaa + IZR 0) nu_min nu_max in
      let* M := Rep M_bm_pl (lambdaa + IZR 0) nu_min nu_max in
      let* p := matmul M p in
      if 1 <? R_ then
        let* M := Rep (M_id_pl ((R_ - 1) / 2)) (lambdaa + IZR 1) nu_min nu_max in
        matmul M p
      else Ok p.
  Definition bSDSV (K T : Z) (anorm lambdaa : R) (R_ nu_min nu_max : Z) : res (mat R) :=
    if Rle_dec lambdaa 0 then Raise ValueError
    else if Rle_dec (lambdaa + IZR R_) 0 then Raise ValueError
    else if (K =? 0) && (T =? 0) && is_odd R_ then oddV lambdaa R_ nu_min nu_max
    else
      let* splits := Lambda_Splits K T R_ in
      let n := Z.abs K + T in
      let long := n <? zlen splits in
      let lamX := if long then nth 0 splits 0 else 0 in
      let s := if long then tl splits else splits in
      let* _ := py_assert (zlen s =? n) in
      let* prod0 := (if lamX <? 0 then
                       let* _ := py_assert (is_even lamX) in
                       let* p := Rep (M_id_ml ((- lamX) / 2)) (lambdaa + IZR 0) nu_min nu_max in
                       Ok (Some p)
                     else Ok None) in
      let run0 := if lamX <? 0 then lamX else 0 in
      let* (prod1, run1) := loopV (Z.to_nat n) anorm lambdaa nu_min nu_max K n lamX n run0 s prod0 in
      let* prod2 := (if 0 <? lamX then
                       let* _ := py_assert (is_even lamX) in
                       let* M := Rep (M_id_pl (lamX / 2)) (lambdaa + IZR run1) nu_min nu_max in
                       if 0 <? n then lmulV M prod1 else Ok (Some M)
                     else Ok prod1) in
      let* prod3 := (if (n =? 0) && (lamX =? 0) then
                       let* p := Rep M_eye (lambdaa + IZR run1) nu_min nu_max in Ok (Some p)
                     else Ok prod2) in
      match prod3 with
      | None => Raise UnboundLocalError
      | Some p => Ok p
      end.
  Definition representationV (op : ktsop) (anorm lambdaa : R) (R_ nu_min nu_max : Z) : res (mat R) :=
    match op with
    | KTOp K T => bSDSV K T anorm lambdaa R_ nu_min nu_max
    | SOp s =>
        let* _ := raise_if (negb (R_ =? 0)) ValueError in
        Rep (if s =? -1 then M_Sm else if s =? 0 then M_S0 else M_Sp) lambdaa nu_min nu_max
    end.
  Fixpoint shfs_loopV (rops : list ktsop) (rshfs : list Z) (anorm lambdaa : R) (run nu_min nu_max : Z) (prod : option (mat R)) : res (option (mat R)) :=
    match rops with
    | [] => Ok prod
    | op :: rops' =>
        match rshfs with
        | [] => Raise IndexError
        | R_ :: rshfs' =>
            let* M := representationV op anorm (lambdaa + IZR run) R_ nu_min nu_max in
            let* prod' := match prod with None => Ok M | Some p => matmul M p end in
            shfs_loopV rops' rshfs' anorm lambdaa (run + R_) nu_min nu_max (Some prod')
        end
    end.
  Definition shfsV (rps_op : list ktsop) (anorm lambdaa : R) (lambda_shfs : list Z) (nu_min nu_max : Z) : res (mat R) :=
    match rps_op with
    | [] => Ok (eye (nu_max - nu_min + 1))
    | _ =>
        let* prod := shfs_loopV (rev rps_op) (rev lambda_shfs) anorm lambdaa 0 nu_min nu_max None in
        match prod with Some p => Ok p | None => Raise UnboundLocalError end
    end.
  Definition Prod_commonV (rbs_op : list rsym) (anorm lambdaa : R) (lambda_var nu_min nu_max nu_lap : Z) : res (mat R) :=
    if Rle_dec lambdaa 0 then Raise ValueError
    else if Rle_dec (lambdaa + IZR lambda_var) 0 then Raise ValueError
    else
      let* parsed_ops := Parse_RadialOp_List rbs_op in
      let* lambda_shfs := Lambda_RadialOp_List parsed_ops lambda_var in
      let '(ops, shfs) := insert_id parsed_ops lambda_shfs in
      let sh := Z.min nu_lap nu_min in
      let* rep := shfsV ops anorm lambdaa shfs (nu_min - sh) (nu_max + nu_lap) in
      if nu_lap =? 0 then Ok rep
      else Ok (slice rep sh (1 + nu_max - nu_min + sh) sh (1 + nu_max - nu_min + sh)).
  Definition iaddV (M N : mat R) : res (mat R) :=
    if (nrows M =? nrows N) && (ncols M =? ncols N) then Ok (madd M N) else Raise ValueError.
  Fixpoint LC_loopV (rest : radial_lc) (anorm lambdaa : R) (lambda_var nu_min nu_max nu_lap : Z) (M : mat R) : res (mat R) :=
    match rest with
    | [] => Ok M
    | (coeff, op) :: rest' =>
        let* N := Prod_commonV op anorm lambdaa lambda_var nu_min nu_max nu_lap in
        let* M' := iaddV M (mscale coeff N) in
        LC_loopV rest' anorm lambdaa lambda_var nu_min nu_max nu_lap M'
    end.
  Definition LCV (rlc_op : radial_lc) (anorm lambdaa : R) (lambda_var nu_min nu_max nu_lap : Z) : res (mat R) :=
    match rlc_op with
    | [] => Ok (zeros (nu_max - nu_min + 1))
    | (coeff, op) :: rest =>
        let* M := Prod_commonV op anorm lambdaa lambda_var nu_min nu_max nu_lap in
        LC_loopV rest anorm lambdaa lambda_var nu_min nu_max nu_lap (mscale coeff M)
    end.
  Definition valueV (k : key) : res (mat R) :=
    match k with
    | KElem e l n0 n1 => Rep e l n0 n1
    | KbSDS K T a l R_ n0 n1 => bSDSV K T a l R_ n0 n1
    | KShfs ops a l sh n0 n1 => shfsV ops a l sh n0 n1
    | KProd ops a l v n0 n1 lap => Prod_commonV ops a l v n0 n1 lap
    | KLC ops a l v n0 n1 lap => LCV ops a l v n0 n1 lap
    end.

  (** A reference stands for a matrix. *)
  Definition reps (m : mem) (r : ref) (M : mat R) : Prop :=
    (base r < length (arrays m))%nat /\ content (arrays m) r = M.
  (** The tables are right. *)
  Definition coherent (m : mem) : Prop := forall k r, tab m k = Some r -> exists M, valueV k = Ok M /\ reps m r M.

  Lemma reps_ext m m' r M : ext m m' -> reps m r M -> reps m' r M.
  Proof. intros [l E] [H C]. split; rewrite E; [rewrite app_length; lia|now rewrite content_app]. Qed.
  Lemma coherent_alloc m M : coherent m -> coherent (mkMem (arrays m ++ [M]) (tab m)).
  Proof.
    intros C k r E. destruct (C k r E) as (N & V & H). exists N. split; [assumption|].
    eapply reps_ext; [|exact H]. exists [M]. reflexivity.
  Qed.
  Lemma coherent_fresh : coherent fresh_mem.
  Proof. discriminate. Qed.

  Definition yields {A B} (Rel : mem -> A -> B -> Prop) (m : mem) (f : hm A) (v : res B) : Prop :=
    ext m (snd (f m)) /\ coherent (snd (f m)) /\
    match fst (f m), v with
    | Ok a, Ok b => Rel (snd (f m)) a b
    | Raise e, Raise e' => e = e'
    | _, _ => False
    end.

  Lemma y_bind {A B A' B'} (Rel : mem -> A -> B -> Prop) (Rel' : mem -> A' -> B' -> Prop) m f v g w : yields Rel m f v ->
    (forall a b m', ext m m' -> coherent m' -> Rel m' a b -> v = Ok b -> yields Rel' m' (g a) (w b)) ->
    yields Rel' m (hbind f g) (bind v w).
  Proof.
    intros (X & C & H) G. unfold yields, hbind. destruct (f m) as [[a|e] m'], v as [b|e']; cbn [fst snd bind] in *; try easy.
    destruct (G a b m' X C H eq_refl) as (X' & C' & H'). repeat split; try assumption. eapply ext_trans; eauto.
  Qed.
  Lemma y_lift_bind {A A' B'} (Rel : mem -> A' -> B' -> Prop) m (x : res A) g w : coherent m ->
    (forall a, x = Ok a -> yields Rel m (g a) (w a)) -> yields Rel m (hbind (hlift x) g) (bind x w).
  Proof.
    intros C G. destruct x as [a|e]; [now apply G|]. repeat split; [apply ext_refl|assumption].
  Qed.
  Lemma y_read_bind {A' B'} (Rel : mem -> A' -> B' -> Prop) m r M g v : reps m r M ->
    yields Rel m (g M) v -> yields Rel m (hbind (read r) g) v.
  Proof. intros [_ <-] H. exact H. Qed.
  Lemma y_ret {A B} (Rel : mem -> A -> B -> Prop) m a b : coherent m -> Rel m a b -> yields Rel m (hret a) (Ok b).
  Proof. intros C H. split; [apply ext_refl|]. split; assumption. Qed.
  Lemma y_raise {A B} (Rel : mem -> A -> B -> Prop) m e : coherent m -> yields Rel m (hlift (Raise e)) (Raise e).
  Proof. intros C. split; [apply ext_refl|]. split; [assumption|reflexivity]. Qed.
  Lemma y_alloc m M : coherent m -> yields reps m (alloc M) (Ok M).
  Proof.
    intros C. split; [exists [M]; reflexivity|]. split; [now apply coherent_alloc|].
    split; cbn [arrays base content snd fst alloc]; [rewrite app_length; cbn; lia|apply nth_last].
  Qed.
  Lemma y_val {A B} (Rel : mem -> A -> B -> Prop) m f v v' : v = v' -> yields Rel m f v -> yields Rel m f v'.
  Proof. now intros ->. Qed.
  Lemma y_lift_alloc m (x : res (mat R)) : coherent m -> yields reps m (mem* M <- hlift x ;; alloc M) x.
  Proof.
    intros C. apply (y_val _ _ _ (bind x (fun a => Ok a))); [apply bind_Ok_r|].
    apply y_lift_bind; [assumption|]. intros M _. now apply y_alloc.
  Qed.
  Lemma y_mul m r1 r2 M N : coherent m -> reps m r1 M -> reps m r2 N -> yields reps m (mulH r1 r2) (matmul M N).
  Proof.
    intros C H1 H2. unfold mulH. eapply y_read_bind; [exact H1|]. eapply y_read_bind; [exact H2|].
    now apply y_lift_alloc.
  Qed.
  Lemma y_scale m r c M : coherent m -> reps m r M -> yields reps m (scaleH c r) (Ok (mscale c M)).
  Proof. intros C H. unfold scaleH. eapply y_read_bind; [exact H|]. now apply y_alloc. Qed.
  Lemma y_memo m k f : coherent m -> yields reps m f (valueV k) -> yields reps m (memo k f) (valueV k).
  Proof.
    intros C (X & C' & H). unfold yields, memo. destruct (tab m k) as [r|] eqn:E.
    - cbn [fst snd]. split; [apply ext_refl|]. split; [assumption|]. destruct (C k r E) as (M & V & HM). now rewrite V.
    - destruct (f m) as [[r|e] m'], (valueV k) as [M|e'] eqn:EV; cbn [fst snd] in *; try easy.
      split; [exact X|]. split; [|exact H]. intros k' r' E'. cbn in E'. destruct (key_eq_dec k' k) as [->|].
      + injection E' as <-. exists M. auto.
      + apply C' in E'. exact E'.
  Qed.
  Lemma y_ext {A B} (Rel : mem -> A -> B -> Prop) m f g v : f m = g m -> yields Rel m g v -> yields Rel m f v.
  Proof. unfold yields. now intros ->. Qed.

  Lemma y_elem m e l n0 n1 : coherent m -> yields reps m (elemH e l n0 n1) (Rep e l n0 n1).
  Proof.
    intros C.
    assert (B : forall e m, coherent m -> yields reps m (builtH Gam Matrix_sqrt Matrix_sqrtInv e l n0 n1) (Rep e l n0 n1)).
    { intros e0 m0 C0. apply (y_memo m0 (KElem e0 l n0 n1)); [assumption|]. cbn [valueV].
      now apply y_lift_alloc. }
    destruct e; try (now apply B); [|now apply y_alloc].
    apply (y_memo m (KElem M_b2_sqrtInv l n0 n1)); [assumption|]. cbn [valueV].
    change (Rep M_b2_sqrtInv l n0 n1) with (bind (Rep M_b2 l n0 n1) Matrix_sqrtInv).
    eapply y_bind; [now apply B|]. intros r M m' X C' H _. eapply y_read_bind; [exact H|].
    now apply y_lift_alloc.
  Qed.

  Lemma y_factor m an l n0 n1 f : coherent m -> yields reps m (factorH an l n0 n1 f) (factorV an l n0 n1 f).
  Proof.
    intros C. unfold factorH, Sharing.factorH, factorV.
    destruct (f_elems f) as [|[e1 o1] [|[e2 o2] [|? ?]]]; try now apply y_raise.
    - eapply y_bind; [now apply y_elem|]. intros r M m' X C' H _. destruct (f_pow f =? 0); [now apply y_ret|now apply y_scale].
    - eapply y_bind; [now apply y_elem|]. intros r M m1 X1 C1 H1 _.
      eapply y_bind; [now apply y_elem|]. intros r2 M2 m2 X2 C2 H2 _.
      eapply y_ext; [apply scaled_mul|]. unfold scaled_mulH.
      eapply y_read_bind; [eapply reps_ext; eauto|]. eapply y_read_bind; [exact H2|].
      apply y_lift_bind; [assumption|]. intros P _. now apply y_alloc.
  Qed.

  Definition oreps (m : mem) (o : option ref) (o' : option (mat R)) : Prop :=
    match o, o' with Some r, Some M => reps m r M | None, None => True | _, _ => False end.
  Lemma oreps_ext m m' o o' : ext m m' -> oreps m o o' -> oreps m' o o'.
  Proof. destruct o, o'; cbn; auto. apply reps_ext. Qed.
  Lemma y_lmul m r M o o' : coherent m -> reps m r M -> oreps m o o' -> yields oreps m (lmulH r o) (lmulV M o').
  Proof.
    intros C H Ho. destruct o as [p|], o' as [P|]; cbn in Ho; try easy; [|now apply y_raise]. unfold lmulH, lmulV.
    eapply y_bind; [now apply y_mul|]. intros q Q m' X C' Hq _. now apply y_ret.
  Qed.

  Lemma y_loop fuel : forall m an l n0 n1 K n lamX i run s prod prodV, coherent m -> oreps m prod prodV ->
    yields (fun m x y => oreps m (fst x) (fst y) /\ snd x = snd y) m
      (loopH fuel an l n0 n1 K n lamX i run s prod) (loopV fuel an l n0 n1 K n lamX i run s prodV).
  Proof.
    induction fuel as [|fuel IH]; intros m an l n0 n1 K n lamX i run s prod prodV C Hp;
      unfold loopH; cbn [Sharing.loopH loopV]; destruct (0 <? i); try (now apply y_raise); try (now apply y_ret).
    apply y_lift_bind; [assumption|]. intros [f imm] _.
    eapply y_bind; [now apply y_factor|]. intros r M m1 X1 C1 H1 _.
    eapply y_bind with (Rel := oreps).
    - destruct ((i =? n) && (0 <=? lamX)); [now apply y_ret|]. apply y_lmul; try assumption. eapply oreps_ext; eauto.
    - intros o o' m2 X2 C2 Ho _. now apply IH.
  Qed.

  Lemma y_odd m l R_ n0 n1 : coherent m -> yields reps m (oddH l R_ n0 n1) (oddV l R_ n0 n1).
  Proof.
    intros C. unfold oddH, Sharing.oddH, oddV. destruct (R_ <? 0).
    all: eapply y_bind; [now apply y_elem|]; intros r1 M1 m1 X1 C1 H1 _.
    all: eapply y_bind; [now apply y_elem|]; intros r2 M2 m2 X2 C2 H2 _.
    all: apply (reps_ext _ _ _ _ X2) in H1.
    all: eapply y_bind; [now apply y_mul|]; intros r3 M3 m3 X3 C3 H3 _.
    all: match goal with |- context [if ?b then _ else _] => destruct b end; [|now apply y_ret].
    all: eapply y_bind; [now apply y_elem|]; intros r4 M4 m4 X4 C4 H4 _.
    all: apply (reps_ext _ _ _ _ X4) in H3; now apply y_mul.
  Qed.

  Lemma y_bSDS_body m K T an l R_ n0 n1 : coherent m -> yields reps m (bSDS_bodyH K T an l R_ n0 n1) (bSDSV K T an l R_ n0 n1).
  Proof.
    intros C. unfold bSDS_bodyH, Sharing.bSDS_bodyH, bSDSV.
    destruct (Rle_dec l 0); [now apply y_raise|]. destruct (Rle_dec (l + IZR R_) 0); [now apply y_raise|].
    destruct ((K =? 0) && (T =? 0) && is_odd R_); [now apply y_odd|].
    apply y_lift_bind; [assumption|]. intros splits _. cbv zeta. apply y_lift_bind; [assumption|]. intros _ _.
    set (lamX := if Z.abs K + T <? zlen splits then nth 0 splits 0 else 0).
    set (s := if Z.abs K + T <? zlen splits then tl splits else splits).
    eapply y_bind with (Rel := oreps).
    { destruct (lamX <? 0); [|now apply y_ret]. apply y_lift_bind; [assumption|]. intros _ _.
      eapply y_bind; [now apply y_elem|]. intros r M m1 X1 C1 H1 _. now apply y_ret. }
    intros p0 P0 m1 X1 C1 H1 _.
    eapply y_bind; [now apply y_loop|]. intros [p1 run1] [P1 run1'] m2 X2 C2 [H2 E2] _. cbn [fst snd] in H2, E2. subst run1'.
    eapply y_bind with (Rel := oreps).
    { destruct (0 <? lamX); [|now apply y_ret]. apply y_lift_bind; [assumption|]. intros _ _.
      eapply y_bind; [now apply y_elem|]. intros r M m3 X3 C3 H3 _. destruct (0 <? Z.abs K + T).
      - apply y_lmul; try assumption. eapply oreps_ext; eauto.
      - now apply y_ret. }
    intros p2 P2 m3 X3 C3 H3 _.
    eapply y_bind with (Rel := oreps).
    { destruct ((Z.abs K + T =? 0) && (lamX =? 0)); [|now apply y_ret].
      eapply y_bind; [now apply y_elem|]. intros r M m4 X4 C4 H4 _. now apply y_ret. }
    intros [p|] [P|] m4 X4 C4 H4 _; cbn in H4; try easy; [now apply y_ret|now apply y_raise].
  Qed.

  Lemma y_representation m op an l R_ n0 n1 : coherent m -> yields reps m (representationH op an l R_ n0 n1) (representationV op an l R_ n0 n1).
  Proof.
    intros C. destruct op as [K T|s]; unfold representationH, Sharing.representationH, representationV.
    - apply (y_memo m (KbSDS K T an l R_ n0 n1)); [assumption|]. now apply y_bSDS_body.
    - apply y_lift_bind; [assumption|]. intros _ _. now apply y_elem.
  Qed.

  Lemma y_shfs_loop rops : forall rshfs m an l run n0 n1 prod prodV, coherent m -> oreps m prod prodV ->
    yields oreps m (shfs_loopH rops rshfs an l run n0 n1 prod) (shfs_loopV rops rshfs an l run n0 n1 prodV).
  Proof.
    induction rops as [|op rops IH]; intros rshfs m an l run n0 n1 prod prodV C Hp; unfold shfs_loopH; cbn [Sharing.shfs_loopH shfs_loopV].
    - now apply y_ret.
    - destruct rshfs as [|R_ rshfs]; [now apply y_raise|].
      eapply y_bind; [now apply y_representation|]. intros r M m1 X1 C1 H1 _.
      eapply y_bind with (Rel := reps).
      + destruct prod as [p|], prodV as [P|]; cbn in Hp; try easy; [|now apply y_ret].
        apply y_mul; try assumption. eapply reps_ext; eauto.
      + intros q Q m2 X2 C2 H2 _. now apply IH.
  Qed.
  Lemma y_shfs m ops an l sh n0 n1 : coherent m -> yields reps m (RepRadialshfs_ProdH ops an l sh n0 n1) (shfsV ops an l sh n0 n1).
  Proof.
    intros C. apply (y_memo m (KShfs ops an l sh n0 n1)); [assumption|]. cbn [valueV]. unfold shfsV.
    destruct ops as [|op ops]; [now apply y_alloc|].
    eapply y_bind; [now apply y_shfs_loop|]. intros [p|] [P|] m1 X1 C1 H1 _; cbn in H1; try easy; [now apply y_ret|now apply y_raise].
  Qed.
  Lemma y_Prod_common m w an l v n0 n1 lap : coherent m -> yields reps m (RepRadial_Prod_commonH w an l v n0 n1 lap) (Prod_commonV w an l v n0 n1 lap).
  Proof.
    intros C. unfold RepRadial_Prod_commonH, Sharing.RepRadial_Prod_commonH, Prod_commonV.
    destruct (Rle_dec l 0); [now apply y_raise|]. destruct (Rle_dec (l + IZR v) 0); [now apply y_raise|].
    apply y_lift_bind; [assumption|]. intros ops _. apply y_lift_bind; [assumption|]. intros sh _.
    destruct (insert_id ops sh) as [ops' sh']. cbv zeta.
    eapply y_bind; [now apply y_shfs|]. intros r M m1 X1 C1 [H1 H1'] _. destruct (lap =? 0); apply y_ret; try assumption; split; try assumption.
    cbn [content]. now rewrite H1'.
  Qed.
  Lemma y_Prod_rem m w an l v n0 n1 lap : coherent m -> yields reps m (RepRadial_Prod_remH w an l v n0 n1 lap) (Prod_commonV w an l v n0 n1 lap).
  Proof. intros C. apply (y_memo m (KProd w an l v n0 n1 lap)); [assumption|]. now apply y_Prod_common. Qed.

  (** Writing into an array that is in no table. *)
  Lemma coherent_put m a X : coherent m -> ~ owned m a -> coherent (mkMem (put (arrays m) a X) (tab m)).
  Proof.
    intros C N k r E. destruct (C k r E) as (M & V & L & H). exists M. split; [assumption|].
    split; cbn [arrays]; [now rewrite put_length|]. rewrite content_put; [assumption|]. intros B. apply N. now exists k, r.
  Qed.
  Lemma coherent_live m a : coherent m -> owned m a -> (a < length (arrays m))%nat.
  Proof. intros C (k & r & E & <-). now destruct (C k r E) as (M & _ & L & _). Qed.
  Lemma coherent_forget p m : coherent m -> coherent (snd (forget p m)).
  Proof. intros C k r E. cbn in E. destruct (p k); [discriminate|]. apply C in E. exact E. Qed.

  (** As [yields], with no claim about old arrays. *)
  Definition gives (x : res ref * mem) (v : res (mat R)) : Prop :=
    coherent (snd x) /\
    match fst x, v with
    | Ok r, Ok M => reps (snd x) r M
    | Raise e, Raise e' => e = e'
    | _, _ => False
    end.

  Definition lc_ok (a : nat) (x : res ref * mem) (v : res (mat R)) : Prop :=
    gives x v /\ ~ owned (snd x) a /\ forall r, fst x = Ok r -> r = Whole a.
  Definition lc_new (x : res ref * mem) (v : res (mat R)) : Prop :=
    gives x v /\ forall r, fst x = Ok r -> ~ owned (snd x) (base r).

  Lemma g_LC_loop rest : forall m an l v n0 n1 lap a M, coherent m -> reps m (Whole a) M -> ~ owned m a ->
    lc_ok a (LC_loopH rest an l v n0 n1 lap (Whole a) m) (LC_loopV rest an l v n0 n1 lap M).
  Proof.
    induction rest as [|[c w] rest IH]; intros m an l v n0 n1 lap a M C H N; unfold LC_loopH; cbn [Sharing.LC_loopH LC_loopV].
    { split; [split; assumption|]. split; [assumption|]. cbn. congruence. }
    unfold hbind at 1.
    destruct (y_Prod_rem m w an l v n0 n1 lap C) as (X1 & C1 & H1).
    destruct (okm_Prod_rem m w an l v n0 n1 lap) as [F1 _].
    assert (N1 : ~ owned (snd (RepRadial_Prod_remH w an l v n0 n1 lap m)) a).
    { intros O. destruct (fr_own _ _ _ F1 _ O); [now apply N|]. destruct H as [H _]. cbn in H. lia. }
    unfold RepRadial_Prod_remH in *.
    destruct (Sharing.RepRadial_Prod_remH _ _ _ w an l v n0 n1 lap m) as [[rep|e] m1], (Prod_commonV w an l v n0 n1 lap) as [P|e'];
      cbn [fst snd bind] in *; try easy.
    apply (reps_ext _ _ _ _ X1) in H. unfold hbind at 1. unfold scaleH at 1. unfold hbind at 1, read, alloc.
    set (m2 := mkMem (arrays m1 ++ [mscale c (content (arrays m1) rep)]) (tab m1)).
    assert (X2 : ext m1 m2) by (eexists; reflexivity).
    assert (C2 : coherent m2) by now apply coherent_alloc.
    assert (H2 : reps m2 (Whole a) M) by (eapply reps_ext; eauto).
    assert (H2' : content (arrays m2) (Whole (length (arrays m1))) = mscale c P).
    { cbn [content m2 arrays]. unfold m2. cbn [arrays]. rewrite nth_last. destruct H1 as [_ ->]. reflexivity. }
    unfold hbind at 1.
    assert (I : iaddH (Whole a) (Whole (length (arrays m1))) m2 =
      match iaddV M (mscale c P) with Ok X => (Ok tt, mkMem (put (arrays m2) a X) (tab m2)) | Raise e => (Raise e, m2) end).
    { unfold iaddH, hbind, read. rewrite H2'. destruct H2 as [_ ->]. unfold iaddV. destruct (_ && _); reflexivity. }
    rewrite I. destruct (iaddV M (mscale c P)) as [X|e]; cbn [bind].
    2: { split; [split; [exact C2|reflexivity]|]. split; [exact N1|discriminate]. }
    assert (C3 : coherent (mkMem (put (arrays m2) a X) (tab m2))) by (apply coherent_put; [exact C2|exact N1]).
    apply (IH _ an l v n0 n1 lap a X C3).
    - split; cbn [base arrays content]; [rewrite put_length; apply H2|]. apply nth_put_same. apply H2.
    - exact N1.
  Qed.

  Lemma g_LC_common m ops an l v n0 n1 lap : coherent m ->
    lc_new (RepRadial_LC_commonH ops an l v n0 n1 lap m) (LCV ops an l v n0 n1 lap).
  Proof.
    intros C. destruct ops as [|[c w] rest]; unfold RepRadial_LC_commonH; cbn [Sharing.RepRadial_LC_commonH LCV].
    { destruct (y_alloc m (zeros (n1 - n0 + 1)) C) as (X & C' & H). split; [split; assumption|].
      cbn. intros r [= <-] O. assert (O' : owned m (length (arrays m))) by exact O.
      apply (coherent_live m) in O'; [lia|assumption]. }
    unfold hbind at 1.
    destruct (y_Prod_rem m w an l v n0 n1 lap C) as (X1 & C1 & H1). unfold RepRadial_Prod_remH in *.
    destruct (Sharing.RepRadial_Prod_remH _ _ _ w an l v n0 n1 lap m) as [[rep|e] m1], (Prod_commonV w an l v n0 n1 lap) as [P|e'];
      cbn [fst snd bind] in *; try easy.
    unfold hbind at 1. unfold scaleH at 1. unfold hbind at 1, read, alloc.
    set (m2 := mkMem (arrays m1 ++ [mscale c (content (arrays m1) rep)]) (tab m1)).
    assert (N : ~ owned m2 (length (arrays m1))).
    { intros O. assert (O' : owned m1 (length (arrays m1))) by exact O. apply (coherent_live m1) in O'; [lia|assumption]. }
    assert (H2 : reps m2 (Whole (length (arrays m1))) (mscale c P)).
    { unfold m2. split; cbn [arrays base content]; [rewrite app_length; cbn; lia|]. rewrite nth_last. destruct H1 as [_ ->]. reflexivity. }
    destruct (g_LC_loop rest m2 an l v n0 n1 lap _ _ (coherent_alloc _ _ C1) H2 N) as (G & N' & E).
    split; [exact G|]. intros r Er. rewrite (E r Er). exact N'.
  Qed.
  Lemma y_LC_rem m ops an l v n0 n1 lap : coherent m -> yields reps m (RepRadial_LC_remH ops an l v n0 n1 lap) (LCV ops an l v n0 n1 lap).
  Proof.
    intros C. apply (y_memo m (KLC ops an l v n0 n1 lap)); [assumption|].
    destruct (g_LC_common m ops an l v n0 n1 lap C) as [[C' H] _]. destruct (okp_LC_common m ops an l v n0 n1 lap) as [F _].
    split; [apply F|]. split; assumption.
  Qed.
  Lemma y_recall m k : coherent m -> yields reps m (recallH k) (valueV k).
  Proof.
    intros C. destruct k; cbn [valueV].
    - now apply y_elem.
    - apply (y_memo m (KbSDS K T anorm lambdaa R_ nu_min nu_max)); [assumption|]. now apply y_bSDS_body.
    - now apply y_shfs.
    - now apply y_Prod_rem.
    - now apply y_LC_rem.
  Qed.
  Lemma y_Prod m w an l v n0 n1 lap : coherent m -> yields reps m (RepRadial_ProdH w an l v n0 n1 lap) (Prod_commonV w an l v n0 n1 lap).
  Proof.
    intros C. destruct (y_Prod_common m w an l v n0 n1 lap C) as (X & C' & H).
    unfold yields.
    change (RepRadial_ProdH w an l v n0 n1 lap m) with
      (match RepRadial_Prod_commonH w an l v n0 n1 lap m with
       | (Ok r, m') => (Ok r, snd (forget cleared_by_Prod m')) | (Raise e, m') => (Raise e, m') end).
    destruct (RepRadial_Prod_commonH w an l v n0 n1 lap m) as [[r|e] m1]; cbn [fst snd] in *; [|easy].
    split; [exact X|]. split; [now apply (coherent_forget cleared_by_Prod)|exact H].
  Qed.
  Lemma g_LC m ops an l v n0 n1 lap : coherent m ->
    lc_new (RepRadial_LCH ops an l v n0 n1 lap m) (LCV ops an l v n0 n1 lap).
  Proof.
    intros C. destruct (g_LC_common m ops an l v n0 n1 lap C) as [[C' H] N]. unfold lc_new.
    change (RepRadial_LCH ops an l v n0 n1 lap m) with
      (match RepRadial_LC_commonH ops an l v n0 n1 lap m with
       | (Ok r, m') => (Ok r, snd (forget cleared_by_LC m')) | (Raise e, m') => (Raise e, m') end).
    destruct (RepRadial_LC_commonH ops an l v n0 n1 lap m) as [[r|e] m1]; cbn [fst snd] in *; [|easy].
    split; [split; [now apply (coherent_forget cleared_by_LC)|exact H]|].
    intros r' E (k & r0 & E0 & B). apply (N r' E). cbn in E0. destruct (cleared_by_LC k); [discriminate|]. now exists k, r0.
  Qed.
  Fixpoint insideV (calls : list key) : res unit :=
    match calls with [] => Ok tt | k :: rest => let* _ := valueV k in insideV rest end.
  Lemma y_inside calls : forall m, coherent m -> yields (fun _ _ _ => True) m (insideH calls) (insideV calls).
  Proof.
    induction calls as [|k calls IH]; intros m C; unfold insideH; cbn [Sharing.insideH insideV]; [now apply y_ret|].
    eapply y_bind; [now apply y_recall|]. intros r M m1 X1 C1 _ _. now apply IH.
  Qed.
End Facts.
