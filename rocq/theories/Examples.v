(** Model of src/acmpy/examples/: sessions of calls, the base class of the
    examples, and the examples of sections 1 to 4 of the worksheet.
    Simplification: the progress lines and the measured time that [run] prints,
    and the return values that some examples print, are left out. *)

From Coq Require Import String Reals.
From Verif Require Import PyBase Compat Text Format Operators Spherical FullLabels Matrix Settings FullSpace Display.
Open Scope Z_scope.

(** section_2.py:24-31 [make_RWC_ham], for numbers and B <> 0. *)
Definition make_RWC_ham (B c1 c2 chi kappa : R) : OperatorSum :=
  let x1 := (- (1 / 2) / B)%R in
  let x3 := (B * c1 / 2)%R in
  let x4 := (B * c2 / 2)%R in
  let x6 := (- chi)%R in
  let z := CNum 0 in
  ACM_Hamiltonian (CNum x1) z (CNum x3) (CNum x4) z (CNum x6) z z z (CNum kappa) z z z z.

Section Sessions.
  (** See Display.v. *)
  Variable flt : text -> R -> text.
  Variable RepX : settings -> OperatorSum -> R -> R -> Z -> Z -> Z -> Z -> Z -> option Z -> res (mat R).
  Variable eigh : mat R -> res (list R * mat R).
  Variable inv : mat R -> res (mat R).
  Variable junk : Z -> Z -> R.

  (** What a user can call: the procedures of globals.py; ACM_Scale, ACM_Adapt
      and ACM_ScaleOrAdapt; the display procedures. *)
  Inductive event : Type :=
  | Call (c : setter)
  | Fit (fit_eig fit_rat : Z) (ham_op : OperatorSum) (anorm lambda_base : R) (nu_min nu_max v_min v_max L_min : Z) (L_max : option Z)
  | ShowEigs (eigen_vals : list (list R)) (Lvals : list Z) (toshow L_min L_max : option Z)
  | ShowRats (Melements : block_array) (rat_lst : option (list (list Z))) (toshow : option Z)
  | ShowAmps (Melements : block_array) (amp_lst : option (list (list Z))) (toshow : option Z).

  (** What the user sees of a call: the exception, if one is raised, what a run
      returns, the lines printed. *)
  Record observed : Type := {
    raised : option exn;
    returned : option (list (list R) * option block_array * list Z);
    printed : list text }.

  Definition seen {A} (f : A -> option (list (list R) * option block_array * list Z)) (p : res A * settings * list text) : observed * settings :=
    let '(r, s, o) := p in
    match r with
    | Ok a => ({| raised := None; returned := f a; printed := o |}, s)
    | Raise e => ({| raised := Some e; returned := None; printed := o |}, s)
    end.

  Definition step (e : event) (s : settings) : observed * settings :=
    match e with
    | Call c => let '(x, s') := perform flt c s in ({| raised := x; returned := None; printed := [] |}, s')
    | Fit fe fr h a l n1 n2 v1 v2 L1 L2 => seen Some (ACM_ScaleOrAdapt flt RepX eigh inv junk h a l n1 n2 v1 v2 fe fr L1 L2 s)
    | ShowEigs ev Lv n L1 L2 => seen (fun _ => None) (Show_Eigs flt ev Lv n L1 L2 s)
    | ShowRats m l n => seen (fun _ => None) (Show_Rats flt m l n s)
    | ShowAmps m l n => seen (fun _ => None) (Show_Amps flt m l n s)
    end.

  (** A session: each call is made in the settings left by the one before,
      whether that returned or raised. *)
  Fixpoint session (es : list event) (s : settings) : list observed * settings :=
    match es with
    | [] => ([], s)
    | e :: es' => let '(o, s1) := step e s in let '(os, s2) := session es' s1 in (o :: os, s2)
    end.

  (** A class of example.py: what its [set], [exec] and [unset] call. *)
  Record example : Type := { ex_set : list setter; ex_exec : prog unit; ex_unset : list setter }.

  (** Calls in sequence; the first exception ends them. *)
  Fixpoint calls (cs : list setter) : prog unit :=
    match cs with
    | [] => pret tt
    | c :: cs' => fun s =>
        match perform flt c s with
        | (None, s') => calls cs' s'
        | (Some e, s') => (Raise e, s', [])
        end
    end.

  (** example.py:21-25 [prepare], of a class given with its predecessors, the
      class itself first. *)
  Fixpoint prepare (chain : list example) : prog unit :=
    match chain with
    | [] => pret tt
    | cls :: predecessors =>
        run! prepare predecessors ;;
        run! calls (ex_set cls) ;;
        calls (ex_unset cls)
    end.

  (** example.py:27-44 [run]. *)
  Definition run (cls : example) (predecessors : list example) : prog unit :=
    run! prepare predecessors ;;
    run! calls (ex_set cls) ;;
    run! ex_exec cls ;;
    calls (ex_unset cls).

  (** section_1.py:8-16 [Example_1_2]. *)
  Definition Example_1_2 : example := {|
    ex_set := [SetDefaults 0; SetOutput (Some 2) (Some 8) (Some 5); SetDatum (Some 1); SetListln (Some 6) (Some 4);
               SetEigFit (Some 6%R) (Some 2) (Some 1); SetRatFit (Some 100%R) (Some 2) (Some 0) (Some 1) (Some 1) 1];
    ex_exec := pret tt; ex_unset := [] |}.

  Definition discard {A} (m : prog A) : prog unit := run! m ;; pret tt.

  (** section_2.py:15-21, 35-37: the Hamiltonian of figure 5a. *)
  Definition ham_5a : OperatorSum := make_RWC_ham 20 (1 - 2 * (3 / 2)) (3 / 2) 2 0.
  Definition scale_5a (nu_max v_max : Z) : prog unit :=
    discard (ACM_Scale flt RepX eigh inv junk ham_5a (sqrt 20) 2.5 0 nu_max 0 v_max 0 (Some 6)).
  Definition adapt_5a (nu_max v_max L_max : Z) : prog unit :=
    discard (ACM_Adapt flt RepX eigh inv junk ham_5a (sqrt 20) 2.5 0 nu_max 0 v_max 0 (Some L_max)).

  Definition plain (exec : prog unit) : example := {| ex_set := []; ex_exec := exec; ex_unset := [] |}.
  Definition setting (cs : list setter) (exec : prog unit) : example := {| ex_set := cs; ex_exec := exec; ex_unset := [] |}.

  (** section_2.py:40-202, last example first; each is the predecessor of the
      one before it in the list, and Example_1_2 of Example_2_2_a. *)
  Definition section_2 : list example :=
    [ (* 2_5_c *) {| ex_set := [SetListln (Some 3) (Some 6)]; ex_exec := adapt_5a 10 18 6; ex_unset := [SetListln (Some 6) (Some 4)] |};
      (* 2_5_b *) setting [SetRatLst (Some [[2]; [2; 0; 1]])] (adapt_5a 10 18 6);
      (* 2_5_a *) setting [SetRatLst (Some [[2; 0]; [2; 2]]); SetAmpLst None] (adapt_5a 10 18 6);
      (* 2_4_d *) setting [SetEigFit (Some 6%R) (Some 2) (Some 1); SetRatFit (Some 100%R) (Some 2) (Some 0) (Some 1) (Some 1) 1;
                           SetRatLst (Some [[2; 0; 1; 1; 2]; [3; 2; 1; 2; 2]; [4; 3; 2; 1; 2]; [4; 2; 2; 2; 2]; [2; 2; 2; 1; 2]]);
                           AddRatLst [[2; 0; 3; 2]; [4; 2; 4; 3]; [6; 4; 4; 4]; [5; 4; 2; 3]; [6; 5; 3; 2]];
                           AddRatLst [[2; 0; 2; 1]; [0; 2; 2; 2]; [0; 2; 2; 1]; [4; 2; 3; 2]];
                           AddRatLst [[2; 0; 4; 3]; [4; 2; 5; 4]; [0; 2; 3; 1]; [2; 0; 4; 1]; [4; 4; 5; 1]]] (adapt_5a 10 12 12);
      (* 2_4_c *) setting [SetEigFit (Some 100%R) (Some 0) (Some 2); SetRatFit (Some 100%R) (Some 2) (Some 2) (Some 2) (Some 1) 1] (adapt_5a 10 18 6);
      (* 2_4_b *) plain (run! adapt_5a 10 18 6 ;; calls [ShowScales 1]);
      (* 2_4_a *) setting [SetScales (Some 0.018%R) (Some 0.0015%R) 1;
                           SetRatLst (Some [[2; 0; 1; 1; 2]; [3; 2; 1; 2; 2]; [4; 3; 2; 1; 2]]);
                           SetAmpLst (Some [[2; 2; 1; 1]; [2; 2; 2; 2]])] (scale_5a 10 18);
      (* 2_3_c *) setting [SetRatLst (Some [[2; 0; 1; 1; 2]; [3; 2; 1; 2; 1]]); SetAmpLst (Some [[6; 6; 1; 1; -1]])] (scale_5a 10 18);
      (* 2_3_b *) setting [AddRatLst [[2; 2; 1; 1]; [4; 4; 1; 1]; [6; 6; 1; 1]; [8; 8; 1; 1]]; AddAmpLst [[2; 2; 2; 2]]] (scale_5a 10 18);
      (* 2_3_a *) setting [SetRatLst (Some [[2; 0; 1; 1]; [4; 2; 1; 1]; [6; 4; 1; 1]; [8; 6; 1; 1]]); SetAmpLst (Some [[2; 2; 1; 1]])] (scale_5a 10 18);
      (* 2_2_d *) plain (scale_5a 10 6);
      (* 2_2_c *) plain (scale_5a 15 18);
      (* 2_2_b *) plain (scale_5a 10 18);
      (* 2_2_a *) plain (scale_5a 5 18);
      Example_1_2 ].

  (** section_3.py:17-28: the Hamiltonian of figure 4c. *)
  Definition ham_4c : OperatorSum := make_RWC_ham 40 (1 - 2 * 1) 1 0.5 0.
  Definition adapt_4c (nu_max L_max : Z) :=
    ACM_Adapt flt RepX eigh inv junk ham_4c (sqrt 40) 2.5 0 nu_max 0 12 0 (Some L_max).

  (** section_3.py:70-78: [exec] of Example_3_3_a.  Without transition lists
      there are no matrix elements to show; that case is not reached. *)
  Definition exec_3_3_a : prog unit :=
    run* (vals, mels, Ls) <- adapt_4c 15 12 ;;
    match mels with
    | None => pret tt
    | Some m =>
        run! Show_Eigs flt vals Ls (Some 6) (Some 6) None ;;
        run! Show_Eigs flt vals Ls (Some 6) (Some 0) (Some 2) ;;
        run! Show_Rats flt m (Some [[4; 2; 2; 2; 2]; [2; 2; 2; 1]; [3; 2; 1; 2]; [5; 3; 1; 1; 2]]) None ;;
        run! Show_Rats flt m (Some [[4; 4; 3; 2]; [5; 4; 2; 3]; [7; 5; 2; 2]; [4; 3; 3; 1]; [6; 4; 3; 3]; [8; 6; 3; 3]]) None ;;
        run! Show_Rats flt m (Some [[6; 6; 4; 3]; [6; 6; 5; 3]; [6; 5; 4; 2]; [6; 5; 5; 2]]) None ;;
        run! Show_Rats flt m (Some [[0; 2; 3; 1]; [0; 2; 4; 1]]) None ;;
        Show_Amps flt m (Some [[2; 2]]) (Some 6)
    end.

  (** section_3.py:31-110, in the same order. *)
  Definition section_3 : list example :=
    [ (* 3_4_d *) plain (discard (praise (dimXspace 0 3 0 12 0 (Some 7))));
      (* 3_4_c *) plain (discard (praise (lbsXspace 0 3 0 12 0 (Some 7))));
      (* 3_4_b *) plain (discard (praise (dimSO5r3_rngVvarL 0 12 0 (Some 7))));
      (* 3_4_a *) plain (discard (praise (lbsSO5r3_rngVvarL 0 12 0 (Some 7))));
      (* 3_3_a *) setting [SetRatLst (Some [[2; 0; 1; 1; 2]]); SetAmpLst (Some [[2; 2; 1; 1]])] exec_3_3_a;
      (* 3_2_c *) plain (discard (adapt_4c 15 7));
      (* 3_2_b *) plain (discard (adapt_4c 10 7));
      (* 3_2_a *) setting [SetListln (Some 4) None; SetRatLst None; SetAmpLst None] (discard (adapt_4c 5 7));
      Example_1_2 ].

  (** section_4.py:16-22. *)
  Definition ham_4_1 : OperatorSum := make_RWC_ham 50 (1 - 2 * 2) 2 1.5 1.
  Definition adapt_4 (a lambda0 : R) (nu_max v_max : Z) : prog unit :=
    discard (ACM_Adapt flt RepX eigh inv junk ham_4_1 a lambda0 0 nu_max 0 v_max 0 (Some 8)).
  (** [print(ACM_show_lambda_fun())], which raises what the function raises. *)
  Definition show_lambda : prog unit := fun s => (let* _ := ACM_show_lambda_fun None None s in Ok tt, s, []).

  (** section_4.py:25-195, in the same order; [alam] is what RWC_alam(50, -3.0,
      2.0) returned at import (section_4.py:92-95).  Example_4_5_d_050508 and
      Example_4_5_d do the same. *)
  Definition section_4 (alam : R * R) : list example :=
    let (a, l) := alam in
    [ (* 4_5_d *) plain (adapt_4 (sqrt 50) 2.5 5 5);
      (* 4_5_c *) setting [SetRatLst (Some [[2; 0; 1; 1; 2]; [2; 2; 2; 1]; [4; 4; 2; 1]; [4; 4; 3; 2]; [4; 4; 4; 3]; [6; 6; 2; 1]; [6; 6; 3; 2]; [6; 6; 4; 3]])] (pret tt);
      (* 4_5_b *) setting [SetBasisType 1 None] show_lambda;
      (* 4_5_a *) plain show_lambda;
      (* 4_4_f *) plain (adapt_4 a l 13 21);
      (* 4_4_e *) plain (adapt_4 a l 11 21);
      (* 4_4_d *) plain (adapt_4 a l 9 21);
      (* 4_4_c *) plain (adapt_4 a l 7 21);
      (* 4_4_b *) plain (adapt_4 a l 5 21);
      (* 4_4_a *) plain (adapt_4 a l 3 21);
      (* 4_3_f *) plain (adapt_4 (sqrt 50) 2.5 21 21);
      (* 4_3_e *) plain (adapt_4 (sqrt 50) 2.5 19 21);
      (* 4_3_d *) plain (adapt_4 (sqrt 50) 2.5 17 21);
      (* 4_3_c *) plain (adapt_4 (sqrt 50) 2.5 15 21);
      (* 4_3_b *) plain (adapt_4 (sqrt 50) 2.5 13 21);
      (* 4_3_a *) plain (adapt_4 (sqrt 50) 2.5 11 21);
      (* 4_2_a *) setting [SetListln (Some 4) (Some 3);
                           SetRatLst (Some [[2; 2; 2; 1]; [4; 4; 2; 1]; [4; 4; 3; 2]; [4; 4; 4; 3]; [6; 6; 2; 1]; [6; 6; 3; 2]; [6; 6; 4; 3]]);
                           SetAmpLst (Some [[2; 2; 1; 1]])] (pret tt);
      (* 4_1_a *) plain (pret tt);
      Example_1_2 ].
End Sessions.
