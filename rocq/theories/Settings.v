(** Model of src/acmpy/globals.py: the rate, amplitude and lambda functions,
    the global settings and the procedures that change them.
    Simplifications: floats are real numbers; printing is modelled only where it
    can raise or where its text is the point ([ACM_show_scales],
    [ACM_set_rat_fit], [ACM_show_lst]), see Report.v for the rest; functions
    stored in settings have a [__name__]. *)

From Coq Require Import String Reals QArith.
From Coq Require Import Lia ZifyBool ZifyNat.
From Verif Require Import PyBase Compat Text Format Spherical CGSO3 RadialOps RadialME Operators.
Open Scope Z_scope.
Ltac Zify.zify_post_hook ::= Z.div_mod_to_equations.

(** [math.sqrt]. *)
Definition math_sqrt (x : R) : res R := if Rlt_dec x 0 then Raise ValueError else Ok (sqrt x).

(** A function of the initial and final angular momenta and a matrix element.
    The first argument stands for [glb_rat_TRopAM] at the time of the call,
    the only setting that the functions of globals.py read. *)
Definition mel_fun : Type := Z -> Z -> Z -> R -> res R.

(** [float(CG_SO3(...))] on integers. *)
Definition CG_SO3_float (j1 m1 j2 m2 j3 m3 : Z) : res R :=
  let* c := CG_SO3 (inject_Z j1) (inject_Z m1) (inject_Z j2) (inject_Z m2) (inject_Z j3) (inject_Z m3) in
  match c with Some x => Ok x | None => Raise TypeError end.

(** globals.py:43-44 [quad_amp_fun]. *)
Definition quad_amp_fun : mel_fun := fun TRopAM Li Lf Mel =>
  let* c := CG_SO3_float Li Li TRopAM (Lf - Li) Lf Lf in
  Ok (Mel * c)%R.

(** globals.py:50-51 [mel_amp_fun]. *)
Definition mel_amp_fun : mel_fun := fun _ _ Lf Mel =>
  let* r := math_sqrt (IZR (2 * Lf + 1)) in Ok (Mel * r)%R.

(** globals.py:57-58 [unit_amp_fun]. *)
Definition unit_amp_fun : mel_fun := fun _ _ _ Mel => Ok Mel.

(** globals.py:64-65 [quad_rat_fun]. *)
Definition quad_rat_fun : mel_fun := fun _ Li Lf Mel =>
  let* df := dimSO3 Lf in
  let* di := dimSO3 Li in
  Ok (Mel ^ 2 * IZR df / IZR di)%R.

(** globals.py:71-72 [mel_rat_fun]. *)
Definition mel_rat_fun : mel_fun := fun _ _ Lf Mel =>
  let* df := dimSO3 Lf in Ok (Mel ^ 2 * IZR df)%R.

(** globals.py:78-79 [unit_rat_fun]. *)
Definition unit_rat_fun : mel_fun := fun _ _ _ Mel => Ok (Mel ^ 2)%R.

(** globals.py:97-101 [gen_amp_mul]. *)
Definition gen_amp_mul (Li Lf Lt : Z) : res R :=
  if Li =? Lf then CG_SO3_float Lf Lf Lt 0 Lf Lf
  else math_sqrt (IZR (2 * Lf + 1)).

(** globals.py:88-89 [mix_amp_fun]. *)
Definition mix_amp_fun : mel_fun := fun TRopAM Li Lf Mel =>
  let* m := gen_amp_mul Li Lf TRopAM in Ok (Mel * m)%R.

(** globals.py:118-121 [lambda_fix_fun]. *)
Definition lambda_fix_fun (v : Z) : res Z := check require_nonnegint v ;; Ok 0.

(** globals.py:127-130 [lambda_sho_fun]. *)
Definition lambda_sho_fun (v : Z) : res Z := check require_nonnegint v ;; Ok v.

(** globals.py:136-139 [lambda_acm_fun]. *)
Definition lambda_acm_fun (v : Z) : res Z := check require_nonnegint v ;; irem v 2.

(** globals.py:149-152 [lambda_jig_fun]. *)
Definition lambda_jig_fun (v : Z) : res Z :=
  check require_nonnegint v ;;
  if v =? 0 then Ok 0 else let* r := irem v 2 in Ok (2 - r).

(** globals.py:180-188 [lambda_davi_fun]; [Int_part] is the floor. *)
Definition lambda_davi_fun (C : R) : Z -> res Z := fun v =>
  check require_nonnegint v ;;
  let* a := math_sqrt (IZR ((v + 1) ^ 2) + C) in
  let* b := math_sqrt (2.25 + C) in
  let diffint := Int_part (a - b) in
  Ok (if is_odd (diffint - v) then diffint + 1 else diffint).

(** globals.py:212-215. *)
Definition def_rat_desg : text := chars "transition rates".
Definition def_rat_format : text := chars "  B(E2: {}) = {}".
Definition def_amp_desg : text := chars "transition amplitudes".
Definition def_amp_format : text := chars "  Amp( {} ) = {}".

(** globals.py:250-407: the global settings. *)
Record settings : Type := mkS {
  g_eig_sft : R;
  g_rat_sft : R;
  g_amp_sft : R;
  g_rel_pre : Z;
  g_rel_wid : Z;
  g_low_pre : Z;
  g_eig_num : Z;
  g_rat_num : Z;
  g_amp_num : Z;
  g_eig_fit : R;
  g_eig_L : Z;
  g_eig_idx : Z;
  g_rat_fit : R;
  g_rat_L1 : Z;
  g_rat_L2 : Z;
  g_rat_1dx : Z;
  g_rat_2dx : Z;
  g_lam_fun : (Z -> res Z);
  g_rat_TRop : OperatorSum;
  g_rat_TRopAM : Z;
  g_rat_fun : mel_fun;
  g_rat_format : text;
  g_rat_desg : text;
  g_amp_fun : mel_fun;
  g_amp_format : text;
  g_amp_desg : text;
  g_amp_sft_fun : (R -> res R);
  g_tran_format : text;
  g_tran_fill : text;
  g_rat_lst : (list (list Z));
  g_amp_lst : (list (list Z));
  g_eig_rel : bool;
  g_nu_lap : Z
}.

(** Assignments [glb_x = v]. *)
Definition w_eig_sft (v : R) (s : settings) : settings :=
  mkS v (g_rat_sft s) (g_amp_sft s) (g_rel_pre s) (g_rel_wid s) (g_low_pre s) (g_eig_num s) (g_rat_num s) (g_amp_num s) (g_eig_fit s) (g_eig_L s) (g_eig_idx s) (g_rat_fit s) (g_rat_L1 s) (g_rat_L2 s) (g_rat_1dx s) (g_rat_2dx s) (g_lam_fun s) (g_rat_TRop s) (g_rat_TRopAM s) (g_rat_fun s) (g_rat_format s) (g_rat_desg s) (g_amp_fun s) (g_amp_format s) (g_amp_desg s) (g_amp_sft_fun s) (g_tran_format s) (g_tran_fill s) (g_rat_lst s) (g_amp_lst s) (g_eig_rel s) (g_nu_lap s).
Definition w_rat_sft (v : R) (s : settings) : settings :=
  mkS (g_eig_sft s) v (g_amp_sft s) (g_rel_pre s) (g_rel_wid s) (g_low_pre s) (g_eig_num s) (g_rat_num s) (g_amp_num s) (g_eig_fit s) (g_eig_L s) (g_eig_idx s) (g_rat_fit s) (g_rat_L1 s) (g_rat_L2 s) (g_rat_1dx s) (g_rat_2dx s) (g_lam_fun s) (g_rat_TRop s) (g_rat_TRopAM s) (g_rat_fun s) (g_rat_format s) (g_rat_desg s) (g_amp_fun s) (g_amp_format s) (g_amp_desg s) (g_amp_sft_fun s) (g_tran_format s) (g_tran_fill s) (g_rat_lst s) (g_amp_lst s) (g_eig_rel s) (g_nu_lap s).
Definition w_amp_sft (v : R) (s : settings) : settings :=
  mkS (g_eig_sft s) (g_rat_sft s) v (g_rel_pre s) (g_rel_wid s) (g_low_pre s) (g_eig_num s) (g_rat_num s) (g_amp_num s) (g_eig_fit s) (g_eig_L s) (g_eig_idx s) (g_rat_fit s) (g_rat_L1 s) (g_rat_L2 s) (g_rat_1dx s) (g_rat_2dx s) (g_lam_fun s) (g_rat_TRop s) (g_rat_TRopAM s) (g_rat_fun s) (g_rat_format s) (g_rat_desg s) (g_amp_fun s) (g_amp_format s) (g_amp_desg s) (g_amp_sft_fun s) (g_tran_format s) (g_tran_fill s) (g_rat_lst s) (g_amp_lst s) (g_eig_rel s) (g_nu_lap s).
Definition w_rel_pre (v : Z) (s : settings) : settings :=
  mkS (g_eig_sft s) (g_rat_sft s) (g_amp_sft s) v (g_rel_wid s) (g_low_pre s) (g_eig_num s) (g_rat_num s) (g_amp_num s) (g_eig_fit s) (g_eig_L s) (g_eig_idx s) (g_rat_fit s) (g_rat_L1 s) (g_rat_L2 s) (g_rat_1dx s) (g_rat_2dx s) (g_lam_fun s) (g_rat_TRop s) (g_rat_TRopAM s) (g_rat_fun s) (g_rat_format s) (g_rat_desg s) (g_amp_fun s) (g_amp_format s) (g_amp_desg s) (g_amp_sft_fun s) (g_tran_format s) (g_tran_fill s) (g_rat_lst s) (g_amp_lst s) (g_eig_rel s) (g_nu_lap s).
Definition w_rel_wid (v : Z) (s : settings) : settings :=
  mkS (g_eig_sft s) (g_rat_sft s) (g_amp_sft s) (g_rel_pre s) v (g_low_pre s) (g_eig_num s) (g_rat_num s) (g_amp_num s) (g_eig_fit s) (g_eig_L s) (g_eig_idx s) (g_rat_fit s) (g_rat_L1 s) (g_rat_L2 s) (g_rat_1dx s) (g_rat_2dx s) (g_lam_fun s) (g_rat_TRop s) (g_rat_TRopAM s) (g_rat_fun s) (g_rat_format s) (g_rat_desg s) (g_amp_fun s) (g_amp_format s) (g_amp_desg s) (g_amp_sft_fun s) (g_tran_format s) (g_tran_fill s) (g_rat_lst s) (g_amp_lst s) (g_eig_rel s) (g_nu_lap s).
Definition w_low_pre (v : Z) (s : settings) : settings :=
  mkS (g_eig_sft s) (g_rat_sft s) (g_amp_sft s) (g_rel_pre s) (g_rel_wid s) v (g_eig_num s) (g_rat_num s) (g_amp_num s) (g_eig_fit s) (g_eig_L s) (g_eig_idx s) (g_rat_fit s) (g_rat_L1 s) (g_rat_L2 s) (g_rat_1dx s) (g_rat_2dx s) (g_lam_fun s) (g_rat_TRop s) (g_rat_TRopAM s) (g_rat_fun s) (g_rat_format s) (g_rat_desg s) (g_amp_fun s) (g_amp_format s) (g_amp_desg s) (g_amp_sft_fun s) (g_tran_format s) (g_tran_fill s) (g_rat_lst s) (g_amp_lst s) (g_eig_rel s) (g_nu_lap s).
Definition w_eig_num (v : Z) (s : settings) : settings :=
  mkS (g_eig_sft s) (g_rat_sft s) (g_amp_sft s) (g_rel_pre s) (g_rel_wid s) (g_low_pre s) v (g_rat_num s) (g_amp_num s) (g_eig_fit s) (g_eig_L s) (g_eig_idx s) (g_rat_fit s) (g_rat_L1 s) (g_rat_L2 s) (g_rat_1dx s) (g_rat_2dx s) (g_lam_fun s) (g_rat_TRop s) (g_rat_TRopAM s) (g_rat_fun s) (g_rat_format s) (g_rat_desg s) (g_amp_fun s) (g_amp_format s) (g_amp_desg s) (g_amp_sft_fun s) (g_tran_format s) (g_tran_fill s) (g_rat_lst s) (g_amp_lst s) (g_eig_rel s) (g_nu_lap s).
Definition w_rat_num (v : Z) (s : settings) : settings :=
  mkS (g_eig_sft s) (g_rat_sft s) (g_amp_sft s) (g_rel_pre s) (g_rel_wid s) (g_low_pre s) (g_eig_num s) v (g_amp_num s) (g_eig_fit s) (g_eig_L s) (g_eig_idx s) (g_rat_fit s) (g_rat_L1 s) (g_rat_L2 s) (g_rat_1dx s) (g_rat_2dx s) (g_lam_fun s) (g_rat_TRop s) (g_rat_TRopAM s) (g_rat_fun s) (g_rat_format s) (g_rat_desg s) (g_amp_fun s) (g_amp_format s) (g_amp_desg s) (g_amp_sft_fun s) (g_tran_format s) (g_tran_fill s) (g_rat_lst s) (g_amp_lst s) (g_eig_rel s) (g_nu_lap s).
Definition w_amp_num (v : Z) (s : settings) : settings :=
  mkS (g_eig_sft s) (g_rat_sft s) (g_amp_sft s) (g_rel_pre s) (g_rel_wid s) (g_low_pre s) (g_eig_num s) (g_rat_num s) v (g_eig_fit s) (g_eig_L s) (g_eig_idx s) (g_rat_fit s) (g_rat_L1 s) (g_rat_L2 s) (g_rat_1dx s) (g_rat_2dx s) (g_lam_fun s) (g_rat_TRop s) (g_rat_TRopAM s) (g_rat_fun s) (g_rat_format s) (g_rat_desg s) (g_amp_fun s) (g_amp_format s) (g_amp_desg s) (g_amp_sft_fun s) (g_tran_format s) (g_tran_fill s) (g_rat_lst s) (g_amp_lst s) (g_eig_rel s) (g_nu_lap s).
Definition w_eig_fit (v : R) (s : settings) : settings :=
  mkS (g_eig_sft s) (g_rat_sft s) (g_amp_sft s) (g_rel_pre s) (g_rel_wid s) (g_low_pre s) (g_eig_num s) (g_rat_num s) (g_amp_num s) v (g_eig_L s) (g_eig_idx s) (g_rat_fit s) (g_rat_L1 s) (g_rat_L2 s) (g_rat_1dx s) (g_rat_2dx s) (g_lam_fun s) (g_rat_TRop s) (g_rat_TRopAM s) (g_rat_fun s) (g_rat_format s) (g_rat_desg s) (g_amp_fun s) (g_amp_format s) (g_amp_desg s) (g_amp_sft_fun s) (g_tran_format s) (g_tran_fill s) (g_rat_lst s) (g_amp_lst s) (g_eig_rel s) (g_nu_lap s).
Definition w_eig_L (v : Z) (s : settings) : settings :=
  mkS (g_eig_sft s) (g_rat_sft s) (g_amp_sft s) (g_rel_pre s) (g_rel_wid s) (g_low_pre s) (g_eig_num s) (g_rat_num s) (g_amp_num s) (g_eig_fit s) v (g_eig_idx s) (g_rat_fit s) (g_rat_L1 s) (g_rat_L2 s) (g_rat_1dx s) (g_rat_2dx s) (g_lam_fun s) (g_rat_TRop s) (g_rat_TRopAM s) (g_rat_fun s) (g_rat_format s) (g_rat_desg s) (g_amp_fun s) (g_amp_format s) (g_amp_desg s) (g_amp_sft_fun s) (g_tran_format s) (g_tran_fill s) (g_rat_lst s) (g_amp_lst s) (g_eig_rel s) (g_nu_lap s).
Definition w_eig_idx (v : Z) (s : settings) : settings :=
  mkS (g_eig_sft s) (g_rat_sft s) (g_amp_sft s) (g_rel_pre s) (g_rel_wid s) (g_low_pre s) (g_eig_num s) (g_rat_num s) (g_amp_num s) (g_eig_fit s) (g_eig_L s) v (g_rat_fit s) (g_rat_L1 s) (g_rat_L2 s) (g_rat_1dx s) (g_rat_2dx s) (g_lam_fun s) (g_rat_TRop s) (g_rat_TRopAM s) (g_rat_fun s) (g_rat_format s) (g_rat_desg s) (g_amp_fun s) (g_amp_format s) (g_amp_desg s) (g_amp_sft_fun s) (g_tran_format s) (g_tran_fill s) (g_rat_lst s) (g_amp_lst s) (g_eig_rel s) (g_nu_lap s).
Definition w_rat_fit (v : R) (s : settings) : settings :=
  mkS (g_eig_sft s) (g_rat_sft s) (g_amp_sft s) (g_rel_pre s) (g_rel_wid s) (g_low_pre s) (g_eig_num s) (g_rat_num s) (g_amp_num s) (g_eig_fit s) (g_eig_L s) (g_eig_idx s) v (g_rat_L1 s) (g_rat_L2 s) (g_rat_1dx s) (g_rat_2dx s) (g_lam_fun s) (g_rat_TRop s) (g_rat_TRopAM s) (g_rat_fun s) (g_rat_format s) (g_rat_desg s) (g_amp_fun s) (g_amp_format s) (g_amp_desg s) (g_amp_sft_fun s) (g_tran_format s) (g_tran_fill s) (g_rat_lst s) (g_amp_lst s) (g_eig_rel s) (g_nu_lap s).
Definition w_rat_L1 (v : Z) (s : settings) : settings :=
  mkS (g_eig_sft s) (g_rat_sft s) (g_amp_sft s) (g_rel_pre s) (g_rel_wid s) (g_low_pre s) (g_eig_num s) (g_rat_num s) (g_amp_num s) (g_eig_fit s) (g_eig_L s) (g_eig_idx s) (g_rat_fit s) v (g_rat_L2 s) (g_rat_1dx s) (g_rat_2dx s) (g_lam_fun s) (g_rat_TRop s) (g_rat_TRopAM s) (g_rat_fun s) (g_rat_format s) (g_rat_desg s) (g_amp_fun s) (g_amp_format s) (g_amp_desg s) (g_amp_sft_fun s) (g_tran_format s) (g_tran_fill s) (g_rat_lst s) (g_amp_lst s) (g_eig_rel s) (g_nu_lap s).
Definition w_rat_L2 (v : Z) (s : settings) : settings :=
  mkS (g_eig_sft s) (g_rat_sft s) (g_amp_sft s) (g_rel_pre s) (g_rel_wid s) (g_low_pre s) (g_eig_num s) (g_rat_num s) (g_amp_num s) (g_eig_fit s) (g_eig_L s) (g_eig_idx s) (g_rat_fit s) (g_rat_L1 s) v (g_rat_1dx s) (g_rat_2dx s) (g_lam_fun s) (g_rat_TRop s) (g_rat_TRopAM s) (g_rat_fun s) (g_rat_format s) (g_rat_desg s) (g_amp_fun s) (g_amp_format s) (g_amp_desg s) (g_amp_sft_fun s) (g_tran_format s) (g_tran_fill s) (g_rat_lst s) (g_amp_lst s) (g_eig_rel s) (g_nu_lap s).
Definition w_rat_1dx (v : Z) (s : settings) : settings :=
  mkS (g_eig_sft s) (g_rat_sft s) (g_amp_sft s) (g_rel_pre s) (g_rel_wid s) (g_low_pre s) (g_eig_num s) (g_rat_num s) (g_amp_num s) (g_eig_fit s) (g_eig_L s) (g_eig_idx s) (g_rat_fit s) (g_rat_L1 s) (g_rat_L2 s) v (g_rat_2dx s) (g_lam_fun s) (g_rat_TRop s) (g_rat_TRopAM s) (g_rat_fun s) (g_rat_format s) (g_rat_desg s) (g_amp_fun s) (g_amp_format s) (g_amp_desg s) (g_amp_sft_fun s) (g_tran_format s) (g_tran_fill s) (g_rat_lst s) (g_amp_lst s) (g_eig_rel s) (g_nu_lap s).
Definition w_rat_2dx (v : Z) (s : settings) : settings :=
  mkS (g_eig_sft s) (g_rat_sft s) (g_amp_sft s) (g_rel_pre s) (g_rel_wid s) (g_low_pre s) (g_eig_num s) (g_rat_num s) (g_amp_num s) (g_eig_fit s) (g_eig_L s) (g_eig_idx s) (g_rat_fit s) (g_rat_L1 s) (g_rat_L2 s) (g_rat_1dx s) v (g_lam_fun s) (g_rat_TRop s) (g_rat_TRopAM s) (g_rat_fun s) (g_rat_format s) (g_rat_desg s) (g_amp_fun s) (g_amp_format s) (g_amp_desg s) (g_amp_sft_fun s) (g_tran_format s) (g_tran_fill s) (g_rat_lst s) (g_amp_lst s) (g_eig_rel s) (g_nu_lap s).
Definition w_lam_fun (v : (Z -> res Z)) (s : settings) : settings :=
  mkS (g_eig_sft s) (g_rat_sft s) (g_amp_sft s) (g_rel_pre s) (g_rel_wid s) (g_low_pre s) (g_eig_num s) (g_rat_num s) (g_amp_num s) (g_eig_fit s) (g_eig_L s) (g_eig_idx s) (g_rat_fit s) (g_rat_L1 s) (g_rat_L2 s) (g_rat_1dx s) (g_rat_2dx s) v (g_rat_TRop s) (g_rat_TRopAM s) (g_rat_fun s) (g_rat_format s) (g_rat_desg s) (g_amp_fun s) (g_amp_format s) (g_amp_desg s) (g_amp_sft_fun s) (g_tran_format s) (g_tran_fill s) (g_rat_lst s) (g_amp_lst s) (g_eig_rel s) (g_nu_lap s).
Definition w_rat_TRop (v : OperatorSum) (s : settings) : settings :=
  mkS (g_eig_sft s) (g_rat_sft s) (g_amp_sft s) (g_rel_pre s) (g_rel_wid s) (g_low_pre s) (g_eig_num s) (g_rat_num s) (g_amp_num s) (g_eig_fit s) (g_eig_L s) (g_eig_idx s) (g_rat_fit s) (g_rat_L1 s) (g_rat_L2 s) (g_rat_1dx s) (g_rat_2dx s) (g_lam_fun s) v (g_rat_TRopAM s) (g_rat_fun s) (g_rat_format s) (g_rat_desg s) (g_amp_fun s) (g_amp_format s) (g_amp_desg s) (g_amp_sft_fun s) (g_tran_format s) (g_tran_fill s) (g_rat_lst s) (g_amp_lst s) (g_eig_rel s) (g_nu_lap s).
Definition w_rat_TRopAM (v : Z) (s : settings) : settings :=
  mkS (g_eig_sft s) (g_rat_sft s) (g_amp_sft s) (g_rel_pre s) (g_rel_wid s) (g_low_pre s) (g_eig_num s) (g_rat_num s) (g_amp_num s) (g_eig_fit s) (g_eig_L s) (g_eig_idx s) (g_rat_fit s) (g_rat_L1 s) (g_rat_L2 s) (g_rat_1dx s) (g_rat_2dx s) (g_lam_fun s) (g_rat_TRop s) v (g_rat_fun s) (g_rat_format s) (g_rat_desg s) (g_amp_fun s) (g_amp_format s) (g_amp_desg s) (g_amp_sft_fun s) (g_tran_format s) (g_tran_fill s) (g_rat_lst s) (g_amp_lst s) (g_eig_rel s) (g_nu_lap s).
Definition w_rat_fun (v : mel_fun) (s : settings) : settings :=
  mkS (g_eig_sft s) (g_rat_sft s) (g_amp_sft s) (g_rel_pre s) (g_rel_wid s) (g_low_pre s) (g_eig_num s) (g_rat_num s) (g_amp_num s) (g_eig_fit s) (g_eig_L s) (g_eig_idx s) (g_rat_fit s) (g_rat_L1 s) (g_rat_L2 s) (g_rat_1dx s) (g_rat_2dx s) (g_lam_fun s) (g_rat_TRop s) (g_rat_TRopAM s) v (g_rat_format s) (g_rat_desg s) (g_amp_fun s) (g_amp_format s) (g_amp_desg s) (g_amp_sft_fun s) (g_tran_format s) (g_tran_fill s) (g_rat_lst s) (g_amp_lst s) (g_eig_rel s) (g_nu_lap s).
Definition w_rat_format (v : text) (s : settings) : settings :=
  mkS (g_eig_sft s) (g_rat_sft s) (g_amp_sft s) (g_rel_pre s) (g_rel_wid s) (g_low_pre s) (g_eig_num s) (g_rat_num s) (g_amp_num s) (g_eig_fit s) (g_eig_L s) (g_eig_idx s) (g_rat_fit s) (g_rat_L1 s) (g_rat_L2 s) (g_rat_1dx s) (g_rat_2dx s) (g_lam_fun s) (g_rat_TRop s) (g_rat_TRopAM s) (g_rat_fun s) v (g_rat_desg s) (g_amp_fun s) (g_amp_format s) (g_amp_desg s) (g_amp_sft_fun s) (g_tran_format s) (g_tran_fill s) (g_rat_lst s) (g_amp_lst s) (g_eig_rel s) (g_nu_lap s).
Definition w_rat_desg (v : text) (s : settings) : settings :=
  mkS (g_eig_sft s) (g_rat_sft s) (g_amp_sft s) (g_rel_pre s) (g_rel_wid s) (g_low_pre s) (g_eig_num s) (g_rat_num s) (g_amp_num s) (g_eig_fit s) (g_eig_L s) (g_eig_idx s) (g_rat_fit s) (g_rat_L1 s) (g_rat_L2 s) (g_rat_1dx s) (g_rat_2dx s) (g_lam_fun s) (g_rat_TRop s) (g_rat_TRopAM s) (g_rat_fun s) (g_rat_format s) v (g_amp_fun s) (g_amp_format s) (g_amp_desg s) (g_amp_sft_fun s) (g_tran_format s) (g_tran_fill s) (g_rat_lst s) (g_amp_lst s) (g_eig_rel s) (g_nu_lap s).
Definition w_amp_fun (v : mel_fun) (s : settings) : settings :=
  mkS (g_eig_sft s) (g_rat_sft s) (g_amp_sft s) (g_rel_pre s) (g_rel_wid s) (g_low_pre s) (g_eig_num s) (g_rat_num s) (g_amp_num s) (g_eig_fit s) (g_eig_L s) (g_eig_idx s) (g_rat_fit s) (g_rat_L1 s) (g_rat_L2 s) (g_rat_1dx s) (g_rat_2dx s) (g_lam_fun s) (g_rat_TRop s) (g_rat_TRopAM s) (g_rat_fun s) (g_rat_format s) (g_rat_desg s) v (g_amp_format s) (g_amp_desg s) (g_amp_sft_fun s) (g_tran_format s) (g_tran_fill s) (g_rat_lst s) (g_amp_lst s) (g_eig_rel s) (g_nu_lap s).
Definition w_amp_format (v : text) (s : settings) : settings :=
  mkS (g_eig_sft s) (g_rat_sft s) (g_amp_sft s) (g_rel_pre s) (g_rel_wid s) (g_low_pre s) (g_eig_num s) (g_rat_num s) (g_amp_num s) (g_eig_fit s) (g_eig_L s) (g_eig_idx s) (g_rat_fit s) (g_rat_L1 s) (g_rat_L2 s) (g_rat_1dx s) (g_rat_2dx s) (g_lam_fun s) (g_rat_TRop s) (g_rat_TRopAM s) (g_rat_fun s) (g_rat_format s) (g_rat_desg s) (g_amp_fun s) v (g_amp_desg s) (g_amp_sft_fun s) (g_tran_format s) (g_tran_fill s) (g_rat_lst s) (g_amp_lst s) (g_eig_rel s) (g_nu_lap s).
Definition w_amp_desg (v : text) (s : settings) : settings :=
  mkS (g_eig_sft s) (g_rat_sft s) (g_amp_sft s) (g_rel_pre s) (g_rel_wid s) (g_low_pre s) (g_eig_num s) (g_rat_num s) (g_amp_num s) (g_eig_fit s) (g_eig_L s) (g_eig_idx s) (g_rat_fit s) (g_rat_L1 s) (g_rat_L2 s) (g_rat_1dx s) (g_rat_2dx s) (g_lam_fun s) (g_rat_TRop s) (g_rat_TRopAM s) (g_rat_fun s) (g_rat_format s) (g_rat_desg s) (g_amp_fun s) (g_amp_format s) v (g_amp_sft_fun s) (g_tran_format s) (g_tran_fill s) (g_rat_lst s) (g_amp_lst s) (g_eig_rel s) (g_nu_lap s).
Definition w_amp_sft_fun (v : (R -> res R)) (s : settings) : settings :=
  mkS (g_eig_sft s) (g_rat_sft s) (g_amp_sft s) (g_rel_pre s) (g_rel_wid s) (g_low_pre s) (g_eig_num s) (g_rat_num s) (g_amp_num s) (g_eig_fit s) (g_eig_L s) (g_eig_idx s) (g_rat_fit s) (g_rat_L1 s) (g_rat_L2 s) (g_rat_1dx s) (g_rat_2dx s) (g_lam_fun s) (g_rat_TRop s) (g_rat_TRopAM s) (g_rat_fun s) (g_rat_format s) (g_rat_desg s) (g_amp_fun s) (g_amp_format s) (g_amp_desg s) v (g_tran_format s) (g_tran_fill s) (g_rat_lst s) (g_amp_lst s) (g_eig_rel s) (g_nu_lap s).
Definition w_tran_format (v : text) (s : settings) : settings :=
  mkS (g_eig_sft s) (g_rat_sft s) (g_amp_sft s) (g_rel_pre s) (g_rel_wid s) (g_low_pre s) (g_eig_num s) (g_rat_num s) (g_amp_num s) (g_eig_fit s) (g_eig_L s) (g_eig_idx s) (g_rat_fit s) (g_rat_L1 s) (g_rat_L2 s) (g_rat_1dx s) (g_rat_2dx s) (g_lam_fun s) (g_rat_TRop s) (g_rat_TRopAM s) (g_rat_fun s) (g_rat_format s) (g_rat_desg s) (g_amp_fun s) (g_amp_format s) (g_amp_desg s) (g_amp_sft_fun s) v (g_tran_fill s) (g_rat_lst s) (g_amp_lst s) (g_eig_rel s) (g_nu_lap s).
Definition w_tran_fill (v : text) (s : settings) : settings :=
  mkS (g_eig_sft s) (g_rat_sft s) (g_amp_sft s) (g_rel_pre s) (g_rel_wid s) (g_low_pre s) (g_eig_num s) (g_rat_num s) (g_amp_num s) (g_eig_fit s) (g_eig_L s) (g_eig_idx s) (g_rat_fit s) (g_rat_L1 s) (g_rat_L2 s) (g_rat_1dx s) (g_rat_2dx s) (g_lam_fun s) (g_rat_TRop s) (g_rat_TRopAM s) (g_rat_fun s) (g_rat_format s) (g_rat_desg s) (g_amp_fun s) (g_amp_format s) (g_amp_desg s) (g_amp_sft_fun s) (g_tran_format s) v (g_rat_lst s) (g_amp_lst s) (g_eig_rel s) (g_nu_lap s).
Definition w_rat_lst (v : (list (list Z))) (s : settings) : settings :=
  mkS (g_eig_sft s) (g_rat_sft s) (g_amp_sft s) (g_rel_pre s) (g_rel_wid s) (g_low_pre s) (g_eig_num s) (g_rat_num s) (g_amp_num s) (g_eig_fit s) (g_eig_L s) (g_eig_idx s) (g_rat_fit s) (g_rat_L1 s) (g_rat_L2 s) (g_rat_1dx s) (g_rat_2dx s) (g_lam_fun s) (g_rat_TRop s) (g_rat_TRopAM s) (g_rat_fun s) (g_rat_format s) (g_rat_desg s) (g_amp_fun s) (g_amp_format s) (g_amp_desg s) (g_amp_sft_fun s) (g_tran_format s) (g_tran_fill s) v (g_amp_lst s) (g_eig_rel s) (g_nu_lap s).
Definition w_amp_lst (v : (list (list Z))) (s : settings) : settings :=
  mkS (g_eig_sft s) (g_rat_sft s) (g_amp_sft s) (g_rel_pre s) (g_rel_wid s) (g_low_pre s) (g_eig_num s) (g_rat_num s) (g_amp_num s) (g_eig_fit s) (g_eig_L s) (g_eig_idx s) (g_rat_fit s) (g_rat_L1 s) (g_rat_L2 s) (g_rat_1dx s) (g_rat_2dx s) (g_lam_fun s) (g_rat_TRop s) (g_rat_TRopAM s) (g_rat_fun s) (g_rat_format s) (g_rat_desg s) (g_amp_fun s) (g_amp_format s) (g_amp_desg s) (g_amp_sft_fun s) (g_tran_format s) (g_tran_fill s) (g_rat_lst s) v (g_eig_rel s) (g_nu_lap s).
Definition w_eig_rel (v : bool) (s : settings) : settings :=
  mkS (g_eig_sft s) (g_rat_sft s) (g_amp_sft s) (g_rel_pre s) (g_rel_wid s) (g_low_pre s) (g_eig_num s) (g_rat_num s) (g_amp_num s) (g_eig_fit s) (g_eig_L s) (g_eig_idx s) (g_rat_fit s) (g_rat_L1 s) (g_rat_L2 s) (g_rat_1dx s) (g_rat_2dx s) (g_lam_fun s) (g_rat_TRop s) (g_rat_TRopAM s) (g_rat_fun s) (g_rat_format s) (g_rat_desg s) (g_amp_fun s) (g_amp_format s) (g_amp_desg s) (g_amp_sft_fun s) (g_tran_format s) (g_tran_fill s) (g_rat_lst s) (g_amp_lst s) v (g_nu_lap s).
Definition w_nu_lap (v : Z) (s : settings) : settings :=
  mkS (g_eig_sft s) (g_rat_sft s) (g_amp_sft s) (g_rel_pre s) (g_rel_wid s) (g_low_pre s) (g_eig_num s) (g_rat_num s) (g_amp_num s) (g_eig_fit s) (g_eig_L s) (g_eig_idx s) (g_rat_fit s) (g_rat_L1 s) (g_rat_L2 s) (g_rat_1dx s) (g_rat_2dx s) (g_lam_fun s) (g_rat_TRop s) (g_rat_TRopAM s) (g_rat_fun s) (g_rat_format s) (g_rat_desg s) (g_amp_fun s) (g_amp_format s) (g_amp_desg s) (g_amp_sft_fun s) (g_tran_format s) (g_tran_fill s) (g_rat_lst s) (g_amp_lst s) (g_eig_rel s) v.
(** The values at import time, globals.py:250-407. *)
Definition imported : settings := mkS 1 1 1 2 7 4 4 4 4 6 2 1 100 2 0 1 1 lambda_acm_fun quad_op 2
  quad_rat_fun def_rat_format def_rat_desg quad_amp_fun def_amp_format def_amp_desg math_sqrt
  (chars "{}({}) -> {}({})") (chars "#") [] [] true 0.

(** A procedure: an outcome and the settings it leaves. *)
Definition proc (A : Type) : Type := settings -> res A * settings.
Definition sret {A} (a : A) : proc A := fun s => (Ok a, s).
Definition sbind {A B} (m : proc A) (f : A -> proc B) : proc B := fun s =>
  let (r, s') := m s in
  match r with Ok a => f a s' | Raise e => (Raise e, s') end.
Definition assign (f : settings -> settings) : proc unit := fun s => (Ok tt, f s).
Definition lift {A} (m : res A) : proc A := fun s => (m, s).
Definition get : proc settings := fun s => (Ok s, s).
Notation "'do*' x '<-' m ';;' k" := (sbind m (fun x => k))
  (at level 200, x pattern, m at level 100, k at level 200, right associativity).
Notation "m ';;;' k" := (sbind m (fun _ => k))
  (at level 150, k at level 200, right associativity).

(** [if x is not None: ...]. *)
Definition when {A} (x : option A) (f : A -> proc unit) : proc unit :=
  match x with Some a => f a | None => sret tt end.
(** An argument with a default fixed at import time. *)
Definition default {A} (d : A) (x : option A) : A := match x with Some a => a | None => d end.

(** [1 / x]. *)
Definition reciprocal (x : R) : res R := if Req_EM_T x 0 then Raise ZeroDivisionError else Ok (/ x)%R.

(** globals.py:473-479 [ACM_show_scales]. *)
Definition ACM_show_scales (show : Z) : proc (R * R * R) :=
  do* s <- get ;;
  (if 0 <? show then
     lift (let* _ := reciprocal (g_eig_sft s) in
           let* _ := reciprocal (g_rat_sft s) in
           let* _ := reciprocal (g_amp_sft s) in Ok tt)
   else sret tt) ;;;
  sret (g_eig_sft s, g_rat_sft s, g_amp_sft s).

(** globals.py:439-452 [ACM_set_scales]. *)
Definition ACM_set_scales (eig_sft rat_sft : option R) (show : Z) : proc unit :=
  when eig_sft (fun x => assign (w_eig_sft x)) ;;;
  when rat_sft (fun x => assign (w_rat_sft x)) ;;;
  do* s <- get ;;
  do* a <- lift (g_amp_sft_fun s (g_rat_sft s)) ;;
  assign (w_amp_sft a) ;;;
  ACM_show_scales show ;;;
  sret tt.

(** globals.py:499-508 [ACM_set_sft_fun]. *)
Definition ACM_set_sft_fun (amp_fun : option (R -> res R)) : proc (R -> res R) :=
  assign (w_amp_sft_fun (default math_sqrt amp_fun)) ;;;
  do* s <- get ;; sret (g_amp_sft_fun s).

(** globals.py:536-559 [ACM_set_output]. *)
Definition ACM_set_output (rel_pre rel_wid low_pre : option Z) : proc (Z * Z * Z) :=
  when rel_pre (fun x => lift (require_nonnegint x) ;;; assign (w_rel_pre x)) ;;;
  when rel_wid (fun x => lift (require_nonnegint x) ;;; assign (w_rel_wid x)) ;;;
  when low_pre (fun x => lift (require_nonnegint x) ;;; assign (w_low_pre x)) ;;;
  do* s <- get ;; sret (g_rel_pre s, g_rel_wid s, g_low_pre s).

(** globals.py:584-602 [ACM_set_listln]. *)
Definition ACM_set_listln (eig_num rat_num : option Z) : proc (Z * Z * Z) :=
  when eig_num (fun x => lift (require_nonnegint x) ;;; assign (w_eig_num x)) ;;;
  when rat_num (fun x => lift (require_nonnegint x) ;;; assign (w_rat_num x) ;;; assign (w_amp_num x)) ;;;
  do* s <- get ;; sret (g_eig_num s, g_rat_num s, g_amp_num s).

(** globals.py:623-636 [ACM_set_datum]. *)
Definition ACM_set_datum (datflag : option Z) : proc bool :=
  let datflag := default 1 datflag in
  lift (require_nonnegint datflag) ;;;
  assign (w_eig_rel (0 <? datflag)) ;;;
  do* s <- get ;; sret (g_eig_rel s).

(** globals.py:659-676 [ACM_set_eig_fit]. *)
Definition ACM_set_eig_fit (eig_fit : option R) (eig_L eig_idx : option Z) : proc (R * Z * Z) :=
  let eig_fit := default 6%R eig_fit in
  let eig_L := default 2 eig_L in
  let eig_idx := default 1 eig_idx in
  lift (require_nonnegint eig_L) ;;;
  lift (require_posint eig_idx) ;;;
  assign (w_eig_fit eig_fit) ;;;
  assign (w_eig_L eig_L) ;;;
  assign (w_eig_idx eig_idx) ;;;
  do* s <- get ;; sret (g_eig_fit s, g_eig_L s, g_eig_idx s).

Section Printing.
  (** Printing of floats, see Format.v. *)
  Variable flt : text -> R -> text.
  Let fmt := py_format flt.

  (** The printing part of globals.py:734-742. *)
  Definition rat_fit_message (s : settings) : res text :=
    let d := FStr (chars "{:d}") in
    let* tran_fmat := fmt (g_tran_format s) [d; d; d; d] in
    let* rat_fmt := fmt (g_rat_format s) [FStr tran_fmat; FStr (chars "{:f}")] in
    fmt rat_fmt [FInt (g_rat_L1 s); FInt (g_rat_1dx s); FInt (g_rat_L2 s); FInt (g_rat_2dx s);
                 FFlt (g_rat_fit s)].

  (** globals.py:716-744 [ACM_set_rat_fit]. *)
  Definition ACM_set_rat_fit (rat_fit : option R) (rat_L1 rat_L2 rat_1dx rat_2dx : option Z) (show : Z)
    : proc (R * Z * Z * Z * Z) :=
    let rat_fit := default 100%R rat_fit in
    let rat_L1 := default 2 rat_L1 in
    let rat_L2 := default 0 rat_L2 in
    let rat_1dx := default 1 rat_1dx in
    let rat_2dx := default 1 rat_2dx in
    lift (require_nonnegint rat_L1) ;;;
    lift (require_nonnegint rat_L2) ;;;
    lift (require_posint rat_1dx) ;;;
    lift (require_posint rat_2dx) ;;;
    assign (w_rat_fit rat_fit) ;;;
    assign (w_rat_L1 rat_L1) ;;;
    assign (w_rat_L2 rat_L2) ;;;
    assign (w_rat_1dx rat_1dx) ;;;
    assign (w_rat_2dx rat_2dx) ;;;
    do* s <- get ;;
    (if 0 <? show then lift (rat_fit_message s) ;;; sret tt else sret tt) ;;;
    sret (g_rat_fit s, g_rat_L1 s, g_rat_L2 s, g_rat_1dx s, g_rat_2dx s).

  (** globals.py:859-873: the line printed for one entry. *)
  Definition show_entry (s : settings) (ent : list Z) : res text :=
    let d := FStr (chars "{:d}") in
    let dk := FStr (chars "{:d}{:+d}k") in
    let* format5 := fmt (g_tran_format s) [dk; d; dk; d] in
    let* format4 := fmt (g_tran_format s) [d; d; d; d] in
    let* format3 := fmt (g_tran_format s) [d; FStr (chars "j_i"); d; d] in
    let* format2 := fmt (g_tran_format s) [d; FStr (chars "j_i"); d; FStr (chars "j_f")] in
    let* format1 := fmt (g_tran_format s) [FStr (chars "L_i"); FStr (chars "j_i"); d; FStr (chars "j_f")] in
    let* format0 := fmt (g_tran_format s)
                        [FStr (chars "L_i"); FStr (chars "j_i"); FStr (chars "L_f"); FStr (chars "j_f")] in
    match ent with
    | [a; b; c; d; k] =>
        if negb (k =? 0) then fmt format5 [FInt a; FInt k; FInt c; FInt b; FInt k; FInt d]
        else fmt format4 [FInt a; FInt b; FInt c; FInt d]
    | [a; b; c; d] => fmt format4 [FInt a; FInt b; FInt c; FInt d]
    | [a; b; c] => fmt format3 [FInt a; FInt b; FInt c]
    | [a; b] => fmt format2 [FInt a; FInt b]
    | [a] => fmt format1 [FInt a]
    | _ => Ok format0
    end.

  (** globals.py:843-877 [ACM_show_lst]: the lines printed, without the two
      leading blanks, after the header.  The formats, recomputed here for each
      entry, are computed once before the loop. *)
  Definition ACM_show_lst (s : settings) (lst : list (list Z)) (show : Z) : res (list text) :=
    if 0 <? show then
      mapM (show_entry s) (filter (fun ent => zlen ent <=? 5) lst)
    else Ok [].

  (** globals.py:880-881, 983-984 [ACM_show_rat_lst], [ACM_show_amp_lst]. *)
  Definition ACM_show_rat_lst (show : Z) : proc (list (list Z)) :=
    do* s <- get ;; lift (ACM_show_lst s (g_rat_lst s) show) ;;; sret (g_rat_lst s).
  Definition ACM_show_amp_lst (show : Z) : proc (list (list Z)) :=
    do* s <- get ;; lift (ACM_show_lst s (g_amp_lst s) show) ;;; sret (g_amp_lst s).

  (** globals.py:779-788 [ACM_add_rat_lst]. *)
  Fixpoint ACM_add_rat_lst (rat_lst : list (list Z)) : proc Z :=
    match rat_lst with
    | [] => do* s <- get ;; sret (zlen (g_rat_lst s))
    | rat_ent :: rest =>
        (if 5 <? zlen rat_ent then sret tt
         else do* s <- get ;; assign (w_rat_lst (g_rat_lst s ++ [rat_ent]))) ;;;
        ACM_add_rat_lst rest
    end.

  (** globals.py:758-762 [ACM_set_rat_lst]. *)
  Definition ACM_set_rat_lst (rat_lst : option (list (list Z))) : proc Z :=
    assign (w_rat_lst []) ;;; ACM_add_rat_lst (default [] rat_lst).

  (** globals.py:916-925 [ACM_add_amp_lst]. *)
  Fixpoint ACM_add_amp_lst (amp_lst : list (list Z)) : proc Z :=
    match amp_lst with
    | [] => do* s <- get ;; sret (zlen (g_amp_lst s))
    | amp_ent :: rest =>
        (if 5 <? zlen amp_ent then sret tt
         else do* s <- get ;; assign (w_amp_lst (g_amp_lst s ++ [amp_ent]))) ;;;
        ACM_add_amp_lst rest
    end.

  (** globals.py:895-899 [ACM_set_amp_lst]. *)
  Definition ACM_set_amp_lst (amp_lst : option (list (list Z))) : proc Z :=
    assign (w_amp_lst []) ;;; ACM_add_amp_lst (default [] amp_lst).

  (** globals.py:1015-1033 [ACM_set_transition]. *)
  Definition ACM_set_transition (TR_op : option OperatorSum) : proc (OperatorSum * Z) :=
    let TR_op := default quad_op TR_op in
    assign (w_rat_TRop TR_op) ;;;
    let rat_AM := Op_AM TR_op in
    assign (w_rat_TRopAM (Z.abs rat_AM)) ;;;
    do* s <- get ;; sret (g_rat_TRop s, g_rat_TRopAM s).

  (** The printing part of globals.py:1081-1088 and 1134-1141. *)
  Definition form_message (s : settings) : res text :=
    fmt (g_tran_format s) [FStr (chars "L_i"); FStr (chars "j_i"); FStr (chars "L_f"); FStr (chars "j_f")].

  (** globals.py:1068-1090 [ACM_set_rat_form]. *)
  Definition ACM_set_rat_form (f : option mel_fun) (format desg : option text) (show : Z)
    : proc (mel_fun * text * text) :=
    assign (w_rat_fun (default quad_rat_fun f)) ;;;
    assign (w_rat_format (default def_rat_format format)) ;;;
    assign (w_rat_desg (default def_rat_desg desg)) ;;;
    do* s <- get ;;
    (if 0 <? show then lift (form_message s) ;;; sret tt else sret tt) ;;;
    sret (g_rat_fun s, g_rat_format s, g_rat_desg s).

  (** globals.py:1121-1143 [ACM_set_amp_form]. *)
  Definition ACM_set_amp_form (f : option mel_fun) (format desg : option text) (show : Z)
    : proc (mel_fun * text * text) :=
    assign (w_amp_fun (default quad_amp_fun f)) ;;;
    assign (w_amp_format (default def_amp_format format)) ;;;
    assign (w_amp_desg (default def_amp_desg desg)) ;;;
    do* s <- get ;;
    (if 0 <? show then lift (form_message s) ;;; sret tt else sret tt) ;;;
    sret (g_amp_fun s, g_amp_format s, g_amp_desg s).

  (** globals.py:1157-1166 [ACM_set_lambda_fun]. *)
  Definition ACM_set_lambda_fun (lambda_fun : Z -> res Z) : proc (Z -> res Z) :=
    assign (w_lam_fun lambda_fun) ;;;
    do* s <- get ;; sret (g_lam_fun s).

  (** globals.py:1212-1239 [ACM_set_basis_type]. *)
  Definition ACM_set_basis_type (choice : Z) (abeta0 : option R) : proc (Z -> res Z) :=
    let abeta0 := default 0%R abeta0 in
    lift (require_nonnegint choice) ;;;
    (if choice =? 0 then ACM_set_lambda_fun lambda_fix_fun
     else if choice =? 1 then ACM_set_lambda_fun lambda_sho_fun
     else if choice =? 2 then ACM_set_lambda_fun lambda_acm_fun
     else if choice =? 3 then ACM_set_lambda_fun (lambda_davi_fun (abeta0 ^ 4))
     else lift (Raise ValueError)) ;;;
    do* s <- get ;; sret (g_lam_fun s).

  (** globals.py:1249-1253 [ACM_show_lambda_fun]. *)
  Definition ACM_show_lambda_fun (vmin vmax : option Z) (s : settings) : res (list Z) :=
    let vmin := default 0 vmin in
    let vmax := default 10 vmax in
    check require_nonnegint vmin ;;
    check require_nonnegint vmax ;;
    mapM (g_lam_fun s) (py_range vmin (vmax + 1)).

  (** globals.py:1285-1292: the loop of [ACM_test_lambda_fun]. *)
  Fixpoint test_loop (f : Z -> res Z) (lam : Z) (vs : list Z) : res bool :=
    match vs with
    | [] => Ok true
    | v :: vs' =>
        let* lamv := f v in
        if (lamv - lam =? 1) || (lamv - lam =? -1) then test_loop f lamv vs' else Ok false
    end.

  (** globals.py:1279-1292 [ACM_test_lambda_fun]. *)
  Definition ACM_test_lambda_fun (vmin vmax : Z) (s : settings) : res bool :=
    check require_nonnegint vmin ;;
    check require_nonnegint vmax ;;
    let* lam := g_lam_fun s vmin in
    test_loop (g_lam_fun s) lam (py_range (vmin + 1) (vmax + 1)).

  (** globals.py:1324-1344 [ACM_set_defaults]. *)
  Definition ACM_set_defaults (show : Z) : proc unit :=
    ACM_set_output (Some 2) (Some 7) (Some 4) ;;;
    ACM_set_listln (Some 4) (Some 4) ;;;
    ACM_set_datum (Some 1) ;;;
    ACM_set_basis_type 2 (Some 0%R) ;;;
    ACM_set_transition (Some quad_op) ;;;
    ACM_set_rat_form (Some quad_rat_fun) (Some def_rat_format) (Some def_rat_desg) show ;;;
    ACM_set_amp_form (Some quad_amp_fun) (Some def_amp_format) (Some def_amp_desg) show ;;;
    ACM_set_sft_fun (Some math_sqrt) ;;;
    ACM_set_eig_fit (Some 6%R) (Some 2) (Some 1) ;;;
    ACM_set_rat_fit (Some 100%R) (Some 2) (Some 0) (Some 1) (Some 1) show ;;;
    ACM_set_rat_lst (Some []) ;;;
    ACM_set_amp_lst (Some []) ;;;
    ACM_show_rat_lst show ;;;
    ACM_show_amp_lst show ;;;
    ACM_set_scales (Some 1%R) (Some 1%R) show.

  (** ** Histories of calls *)

  Inductive setter : Type :=
  | SetScales (eig_sft rat_sft : option R) (show : Z)
  | ShowScales (show : Z)
  | SetSftFun (f : option (R -> res R))
  | SetOutput (rel_pre rel_wid low_pre : option Z)
  | SetListln (eig_num rat_num : option Z)
  | SetDatum (datflag : option Z)
  | SetEigFit (fit : option R) (L idx : option Z)
  | SetRatFit (fit : option R) (L1 L2 idx1 idx2 : option Z) (show : Z)
  | SetRatLst (l : option (list (list Z)))
  | AddRatLst (l : list (list Z))
  | ShowRatLst (show : Z)
  | SetAmpLst (l : option (list (list Z)))
  | AddAmpLst (l : list (list Z))
  | ShowAmpLst (show : Z)
  | SetTransition (op : option OperatorSum)
  | SetRatForm (f : option mel_fun) (format desg : option text) (show : Z)
  | SetAmpForm (f : option mel_fun) (format desg : option text) (show : Z)
  | SetLambdaFun (f : Z -> res Z)
  | SetBasisType (choice : Z) (abeta0 : option R)
  | SetDefaults (show : Z).

  (** The exception raised, if any, and the settings left by a call. *)
  Definition outcome {A} (p : res A * settings) : option exn * settings :=
    (match fst p with Ok _ => None | Raise e => Some e end, snd p).

  Definition perform (c : setter) (s : settings) : option exn * settings :=
    match c with
    | SetScales a b w => outcome (ACM_set_scales a b w s)
    | ShowScales w => outcome (ACM_show_scales w s)
    | SetSftFun f => outcome (ACM_set_sft_fun f s)
    | SetOutput a b d => outcome (ACM_set_output a b d s)
    | SetListln a b => outcome (ACM_set_listln a b s)
    | SetDatum a => outcome (ACM_set_datum a s)
    | SetEigFit a b d => outcome (ACM_set_eig_fit a b d s)
    | SetRatFit a b d e f w => outcome (ACM_set_rat_fit a b d e f w s)
    | SetRatLst l => outcome (ACM_set_rat_lst l s)
    | AddRatLst l => outcome (ACM_add_rat_lst l s)
    | ShowRatLst w => outcome (ACM_show_rat_lst w s)
    | SetAmpLst l => outcome (ACM_set_amp_lst l s)
    | AddAmpLst l => outcome (ACM_add_amp_lst l s)
    | ShowAmpLst w => outcome (ACM_show_amp_lst w s)
    | SetTransition op => outcome (ACM_set_transition op s)
    | SetRatForm f a b w => outcome (ACM_set_rat_form f a b w s)
    | SetAmpForm f a b w => outcome (ACM_set_amp_form f a b w s)
    | SetLambdaFun f => outcome (ACM_set_lambda_fun f s)
    | SetBasisType a b => outcome (ACM_set_basis_type a b s)
    | SetDefaults w => outcome (ACM_set_defaults w s)
    end.

  (** A history: each call is made in the settings left by the previous one,
      whether that returned or raised. *)
  Definition history (cs : list setter) (s : settings) : settings :=
    fold_left (fun s c => snd (perform c s)) cs s.
End Printing.
