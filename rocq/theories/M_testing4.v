(** Model of the tests of image_registration/tests/registration_testing.py themselves: True when every assertion holds, False when
    one fails (AssertionError) *)
From Coq Require Import ZArith Lia List Reals Lra Bool.
From Coquelicot Require Import Complex.
From Verif Require Import Base NDim DFT Kernel Num Py M_fast_ffts M_shift M_upsample M_convolve M_correlate M_kernel Arg M_chi2 M_xcorr M_register M_testing M_testing2.
Import ListNotations.
Open Scope R_scope.

(** a < b for floats *)
Definition below (a b : R) : bool := if Rlt_dec a b then true else false.
(** chi2_shift(image, offset_image, err, return_error=True, upsample_factor='auto'), the other options at their defaults *)
Definition auto_fit (e : env) (image offset_image : arr R) (err : errarg) : res (R * R * R * R) :=
  let! out := chi2_shift e (amap Fin image) (amap Fin offset_image) err UAuto BWrap 1 false false 2 false true false 512 (11 / 10) false in
  match out with [RNum x; RNum y; RNum ex; RNum ey] => Ok (x, y, ex, ey) | _ => Raise ValueError end.
(** the err argument: noise, or noise/edge_weight(imsize) *)
Definition fit_error (list_index_ok has_scipy : bool) (imsize : Z) (noise_taper : bool) (noise : R) : res errarg :=
  if noise_taper then let! w := edge_weight list_index_ok has_scipy imsize (PInt 5) in Ok (ErrArr (amap (fun v => Fin (noise / v)) w))
  else Ok (ErrScalar noise).

(** registration_testing.py:141-150 [fit_extended_shifts]; [re], [im] are the draws of make_extended, [randn] that of make_offset_extended *)
Definition fit_extended_shifts (list_index_ok has_scipy : bool) (e : env) (xsh ysh : R) (imsize : Z) (noise_taper : bool) (nsigma noise : R)
    (re im : Z -> Z -> R) (randn : list Z -> R) : res (R * R * R * R * R) :=
  let! image := make_extended (IZR imsize) None 2 re im in
  let! offset_image := make_offset_extended list_index_ok has_scipy (e_fftw e) (amap Fin image) xsh ysh randn noise noise_taper in
  let! err := fit_error list_index_ok has_scipy imsize noise_taper noise in
  let! (x, y, ex, ey) := auto_fit e image offset_image err in
  Ok (x, y, ex, ey, nsigma).

(** registration_testing.py:152-158 [test_extended_shifts] (noise 1.0 is fit_extended_shifts' default) *)
Definition test_extended_shifts (list_index_ok has_scipy : bool) (e : env) (xsh ysh : R) (imsize : Z) (noise_taper : bool) (nsigma : R)
    (re im : Z -> Z -> R) (randn : list Z -> R) : res bool :=
  let! (xoff, yoff, exoff, eyoff, nsigma) := fit_extended_shifts list_index_ok has_scipy e xsh ysh imsize noise_taper nsigma 1 re im randn in
  Ok (below (Rabs (xoff - xsh)) (nsigma * exoff) && below (Rabs (yoff - ysh)) (nsigma * eyoff)).

(** registration_testing.py:161-173 [test_extended_shifts_lownoise]; with noise_taper the earlier lines raise (C118), so the last two
    assertions only ever see the scalar noise *)
Definition test_extended_shifts_lownoise (list_index_ok has_scipy : bool) (e : env) (xsh ysh : R) (imsize : Z) (noise_taper : bool) (nsigma noise : R)
    (re im : Z -> Z -> R) (randn : list Z -> R) : res bool :=
  let! image := make_extended (IZR imsize) None 2 re im in
  let! offset_image := make_offset_extended list_index_ok has_scipy (e_fftw e) (amap Fin image) xsh ysh randn noise noise_taper in
  let! err := fit_error list_index_ok has_scipy imsize noise_taper noise in
  let! (xoff, yoff, exoff, eyoff) := auto_fit e image offset_image err in
  Ok (below (Rabs (xoff - xsh)) (nsigma * exoff) && below (Rabs (yoff - ysh)) (nsigma * eyoff) &&
      below (Rabs (exoff - 8 / 100 * noise)) (3 / 100) && below (Rabs (eyoff - 8 / 100 * noise)) (3 / 100)).

(** registration_testing.py:176-186 [test_shifts], the half that calls chi2_shift (gaussfit False); the other calls cross_correlation_shifts *)
Definition test_shifts (e : env) (xsh ysh : R) (imsize : Z) (draw : Z -> Z -> R) : res bool :=
  let! (image, new_image, tolerance) := make_offset_images xsh ysh (IZR imsize) 3 1000 1 (PInt 50) (PInt 50) draw in
  let! out := chi2_shift e (amap Fin image) (amap Fin new_image) ErrNone UAuto BWrap 1 false false 2 false false false 512 (11 / 10) false in
  match out with
  | [RNum xoff; RNum yoff] => Ok (ltn (Rabs (xoff - xsh)) tolerance && ltn (Rabs (yoff - ysh)) tolerance)
  | _ => Raise ValueError
  end.

(** registration_testing.py:592-610 [test_issue19] (imsize 128, offset (3, -3.5), noise 0.1 there; noise_taper is the constant False) *)
Definition test_issue19 (list_index_ok has_scipy : bool) (e : env) (xsh ysh : R) (imsize : Z) (noise : R) (re im : Z -> Z -> R) (randn : list Z -> R) : res bool :=
  let! image := make_extended (IZR imsize) None 2 re im in
  let! offset_image := make_offset_extended list_index_ok has_scipy (e_fftw e) (amap Fin image) xsh ysh randn noise false in
  let! (xoff, yoff, exoff, eyoff) := auto_fit e image offset_image (ErrScalar noise) in
  let! shifted := shiftnd (e_fftw e) (of_num (amap Fin offset_image)) [- yoff; - xoff] 0 1 false false true in
  let difference := sumNR (shape image) (fun q => match shifted with
                      | CplxArr c => Cmod (Cminus (get c q) (RtoC (get image q)))
                      | RealArr r => Rabs (get r q - get image q)
                      end) in
  Ok (below difference (noise * IZR (prodZ (shape image)) * 2) &&
      below difference (sumNR (shape image) (fun q => Rabs (get offset_image q - get image q)))).

(** registration_testing.py:613-631 [test_issue_60] (imsize 10000, offset (3, -3.5) there): a ValueError is allowed only without
    allow_huge, and expected there *)
Definition test_issue_60 (e : env) (allow_huge : bool) (imsize : Z) (xsh ysh : R) (draw : Z -> Z -> R) : res bool :=
  let! (image, new_image, tolerance) := make_offset_images xsh ysh (IZR imsize) 3 1000 1 (PInt 50) (PInt 50) draw in
  match (let! out := chi2_shift e (amap Fin image) (amap Fin new_image) ErrNone UAuto BWrap 1 false false 2 false false false 512 (11 / 10) allow_huge in
         match out with [RNum xoff; RNum yoff] => Ok (xoff, yoff) | _ => Raise ValueError end) with
  | Raise ValueError => Ok (negb allow_huge)
  | Raise x => Raise x
  | Ok (xoff, yoff) => Ok (allow_huge && ltn (Rabs (xoff - xsh)) tolerance && ltn (Rabs (yoff - ysh)) tolerance)
  end.
