(** Model of the other half of test_shifts (tests/registration_testing.py) *)
From Coq Require Import ZArith Lia List Reals Lra Bool.
From Coquelicot Require Import Complex.
From Verif Require Import Base NDim DFT Kernel Num Py M_convolve M_correlate M_kernel Arg M_chi2 M_xcorr M_testing M_testing2.
Import ListNotations.
Open Scope R_scope.

(** np.abs(x - a) < tolerance for a float that may be nan or infinite *)
Definition close_to (x : xnum) (a : R) (tolerance : num) : bool := match x with XF r => ltn (Rabs (r - a)) tolerance | _ => false end.

(** registration_testing.py:176-180, 185-186 [test_shifts] with gaussfit True: cross_correlation_shifts is called with its defaults
    (gaussfit False, zeromean True); two results do not unpack into four names *)
Definition test_shifts_gaussfit (e : env) (agpy : option fitter) (xsh ysh : R) (imsize : Z) (draw : Z -> Z -> R) : res bool :=
  let! (image, new_image, tolerance) := make_offset_images xsh ysh (IZR imsize) 3 1000 1 (PInt 50) (PInt 50) draw in
  let! out := cross_correlation_shifts e agpy (amap Fin image) (amap Fin new_image) None None None false true true BWrap 1 false false in
  match out with
  | [xoff; yoff; exoff; eyoff] => Ok (close_to xoff xsh tolerance && close_to yoff ysh tolerance)
  | _ => Raise ValueError
  end.
