(** Python dictionaries as association lists in insertion order. *)

From Verif Require Import PyBase.
Open Scope Z_scope.

Section Dict.
  Context {K V : Type}.
  Variable eq_dec : forall a b : K, {a = b} + {a <> b}.

  (** [d[k] = v]: overwrites in place or appends. *)
  Fixpoint dict_set (d : list (K * V)) (k : K) (v : V) : list (K * V) :=
    match d with
    | [] => [(k, v)]
    | (k', v') :: d' => if eq_dec k' k then (k', v) :: d' else (k', v') :: dict_set d' k v
    end.

  (** [d.get(k)]. *)
  Fixpoint dict_get (d : list (K * V)) (k : K) : option V :=
    match d with
    | [] => None
    | (k', v) :: d' => if eq_dec k' k then Some v else dict_get d' k
    end.

  (** [d[k]]. *)
  Definition dict_item (d : list (K * V)) (k : K) : res V :=
    match dict_get d k with Some v => Ok v | None => Raise KeyError end.

  (** [{k: v for k, v in l}]. *)
  Definition dict_of (l : list (K * V)) : list (K * V) :=
    fold_left (fun d p => dict_set d (fst p) (snd p)) l [].

  Lemma dict_get_set d k v k' :
    dict_get (dict_set d k v) k' = if eq_dec k k' then Some v else dict_get d k'.
  Proof.
    induction d as [|[a x] d IH]; cbn [dict_set dict_get]; [reflexivity|].
    destruct (eq_dec a k) as [->|N]; cbn [dict_get].
    - destruct (eq_dec k k'); reflexivity.
    - rewrite IH. destruct (eq_dec a k') as [->|]; [|reflexivity].
      destruct (eq_dec k k'); [congruence|reflexivity].
  Qed.

  (** The value of the last pair with key [k]. *)
  Definition last_with (l : list (K * V)) (k : K) : option V :=
    fold_left (fun o p => if eq_dec (fst p) k then Some (snd p) else o) l None.

  Lemma dict_get_of l k : dict_get (dict_of l) k = last_with l k.
  Proof.
    unfold dict_of, last_with.
    assert (H : forall d o, dict_get d k = o ->
      dict_get (fold_left (fun d p => dict_set d (fst p) (snd p)) l d) k
      = fold_left (fun o p => if eq_dec (fst p) k then Some (snd p) else o) l o).
    { induction l as [|[a x] l IH]; intros d o E; cbn [fold_left]; [exact E|].
      apply IH. rewrite dict_get_set. cbn [fst snd]. destruct (eq_dec a k); [reflexivity|exact E]. }
    now apply H.
  Qed.

  Lemma last_with_app l1 l2 k :
    last_with (l1 ++ l2) k = match last_with l2 k with Some v => Some v | None => last_with l1 k end.
  Proof.
    unfold last_with. rewrite fold_left_app.
    generalize (fold_left (fun o p => if eq_dec (fst p) k then Some (snd p) else o) l1 None) as o.
    induction l2 as [|p l2 IH] using rev_ind; intros o; [reflexivity|].
    rewrite !fold_left_app. cbn [fold_left]. destruct (eq_dec (fst p) k); [reflexivity|]. apply IH.
  Qed.

  Lemma last_with_None l k : last_with l k = None <-> ~ In k (map fst l).
  Proof.
    induction l as [|p l IH] using rev_ind; [cbn; tauto|].
    rewrite last_with_app, map_app, in_app_iff. cbn.
    destruct (eq_dec (fst p) k) as [E|E].
    - split; [discriminate|]. intros H. exfalso. apply H. right. now left.
    - rewrite IH. tauto.
  Qed.

  Lemma last_with_Some l k v : last_with l k = Some v <->
    exists l1 l2, l = l1 ++ (k, v) :: l2 /\ ~ In k (map fst l2).
  Proof.
    split.
    - induction l as [|[a x] l IH] using rev_ind; [discriminate|].
      rewrite last_with_app. cbn. destruct (eq_dec a k) as [->|E].
      + intros H. injection H as ->. exists l, []. auto.
      + intros H. destruct (IH H) as (l1 & l2 & -> & N).
        exists l1, (l2 ++ [(a, x)]). rewrite <- app_assoc. split; [reflexivity|].
        rewrite map_app, in_app_iff. cbn. intuition.
    - intros (l1 & l2 & -> & N). rewrite last_with_app.
      change ((k, v) :: l2) with ([(k, v)] ++ l2). rewrite last_with_app.
      apply last_with_None in N. rewrite N. cbn. destruct (eq_dec k k); [reflexivity|congruence].
  Qed.

  Lemma dict_get_In d k v : dict_get d k = Some v -> In (k, v) d.
  Proof.
    induction d as [|[a x] d IH]; cbn; [discriminate|].
    destruct (eq_dec a k) as [->|]; [intros H; injection H as ->; auto|auto].
  Qed.

  Lemma dict_get_NoDup l k v : NoDup (map fst l) -> In (k, v) l -> dict_get (dict_of l) k = Some v.
  Proof.
    intros HN HI. rewrite dict_get_of. apply last_with_Some.
    apply in_split in HI. destruct HI as (l1 & l2 & ->). exists l1, l2. split; [reflexivity|].
    rewrite map_app in HN. cbn in HN. apply NoDup_remove_2 in HN.
    intros H. apply HN, in_app_iff. now right.
  Qed.
End Dict.
