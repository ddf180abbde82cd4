(** The package's own shift functions as register_method of register_fits and cross_correlation_shifts_FITS *)
From Coq Require Import ZArith Lia List Reals Lra Bool String.
From Coquelicot Require Import Complex.
From Verif Require Import Base NDim DFT Kernel Num Py M_shift M_convolve M_xcorr M_chi2 M_iterzoom M_register M_fits.
Import ListNotations.
Open Scope R_scope.

Inductive method := MIterzoom | MChi2 (upsample_factor : usarg) | MRegisterImages | MCrossCorrelation.

Definition numbers (l : list retval) : list R := flat_map (fun v => match v with RNum r => [r] | RMaps _ _ _ => [] end) l.
Definition err_of (err : option (arr num)) : errarg := match err with None => ErrNone | Some a => ErrArr a end.

(** match_images.py:157-159: register_method(im1, im2, err=errimage, return_error=True).
    - chi2_shift_iterzoom (chi2_shifts.py:309-432), the default;
    - chi2_shift (chi2_shifts.py:13) with the given upsample_factor, other options at their defaults;
    - register_images (register_images.py:9) has no parameter err: TypeError;
    - cross_correlation_shifts (cross_correlation_shifts.py:9) passes err= on to correlate2d and that to convolve_fft, which
      has no such parameter: after the shape check (and im2[::-1,::-1]) TypeError. *)
Definition call_with_error (e : env) (m : method) (im1 im2 : arr num) (err : option (arr num)) : res (list R) :=
  match m with
  | MIterzoom =>
    match chi2_shift_iterzoom e None 0 im1 im2 (err_of err) BWrap 1 false false true false [10; 10]%Z [100; 100]%Z 5 1 with
    | Some (Raise x) => Raise x
    | _ => Raise Unmodelled
    end
  | MChi2 u =>
    let! l := chi2_shift e im1 im2 (err_of err) u BWrap 1 false false 2 false true false 512 (11 / 10) false in
    Ok (numbers l)
  | MRegisterImages => Raise TypeError
  | MCrossCorrelation =>
    if negb (same_shape im1 im2) then Raise ValueError else
    match shape im2 with _ :: _ :: _ => Raise TypeError | _ => Raise IndexError end
  end.

(** cross_correlation_shifts.py:254-255: register_method(im1, im2, verbose=verbose, return_error=False).
    register_images has no parameter verbose, chi2_shift_iterzoom passes it on to iterative_zoom but fails before (NameError).
    A non-finite number from the Taylor refinement is outside the model here. *)
Definition call_without_error (e : env) (m : method) (im1 im2 : arr num) : res (list R) :=
  match m with
  | MIterzoom =>
    match chi2_shift_iterzoom e None 0 im1 im2 ErrNone BWrap 1 false false false false [10; 10]%Z [100; 100]%Z 5 1 with
    | Some (Raise x) => Raise x
    | _ => Raise Unmodelled
    end
  | MChi2 u =>
    let! l := chi2_shift e im1 im2 ErrNone u BWrap 1 false false 2 false false false 512 (11 / 10) false in
    Ok (numbers l)
  | MRegisterImages => Raise TypeError
  | MCrossCorrelation =>
    let! l := cross_correlation_shifts e None im1 im2 None None None false false true BWrap 1 false false in
    match l with [XF x; XF y] => Ok [x; y] | _ => Raise Unmodelled end
  end.
