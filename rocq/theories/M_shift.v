(** Model of image_registration/fft_tools/shift.py *)
From Coq Require Import ZArith Lia List Reals Lra Bool.
From Coquelicot Require Import Complex.
From Verif Require Import Base NDim DFT Kernel Py M_fast_ffts.
Import ListNotations.
Open Scope R_scope.

(** numpy's error behaviour on axes of length zero: np.fft.fftfreq(0) is 1.0/0 (ZeroDivisionError),
    np.fft.fftn raises ValueError on an empty axis. *)
Definition check_freqs (ns : list Z) : res unit :=
  if existsb (fun n => Z.eqb n 0) ns then Raise ZeroDivisionError else Ok tt.
Definition check_fft (sh : list Z) : res unit :=
  if pos_shapeb sh then Ok tt else Raise ValueError.

(** shift.py:97-98 (= 36-37): NaNs become zeros *)
Definition clean_nan (data : arr cnum) : arr C := amap cnan0 data.

(** shift.py:49-54, 113-118: which view of the complex result is returned *)
Definition pick (return_abs return_real : bool) (r : arr C) : anyarr :=
  if return_real then RealArr (amap Re r)
  else if return_abs then RealArr (amap Cmod r)
  else CplxArr r.

(** shift.py:100-107: sum over enumerate(zip(offset, data.shape)) of off*fftfreq(n) broadcast along axis dim.
    zip stops at the shorter list, so missing offsets contribute nothing and extra ones are ignored. *)
Fixpoint freq_grid (offset : list R) (sh : list Z) (k : list Z) : R :=
  match offset, sh, k with
  | off :: offset', n :: sh', k0 :: k' => off * fftfreq n k0 + freq_grid offset' sh' k'
  | _, _, _ => 0
  end.

(** shift.py:56-118 [shiftnd].  np.exp(-1j*2*pi*fg - 1j*phase) is cis(-2 pi fg - phase). *)
Definition shiftnd (has_fftw : bool) (data : arr cnum) (offset : list R) (phase : R)
    (nthreads : Z) (use_numpy_fft return_abs return_real : bool) : res anyarr :=
  let '(fftn, ifftn) := get_ffts has_fftw nthreads use_numpy_fft in
  let data' := clean_nan data in
  let sh := shape data in
  let! _ := check_freqs (map snd (combine offset sh)) in
  let kernel := Arr sh (fun k => cis (- (2 * PI * freq_grid offset sh k) - phase)) in
  let! _ := check_fft sh in
  let spec := fftn data' in
  let result := ifftn (Arr sh (fun k => Cmult (get spec k) (get kernel k))) in
  Ok (pick return_abs return_real result).

(** shift.py:11-54 [shift2d] *)
Definition shift2d (has_fftw : bool) (data : arr cnum) (deltax deltay phase : R)
    (nthreads : Z) (use_numpy_fft return_abs return_real : bool) : res anyarr :=
  let '(fftn, ifftn) := get_ffts has_fftw nthreads use_numpy_fft in
  let data' := clean_nan data in
  match shape data with
  | [ny; nx] =>                                           (* ny,nx = data.shape *)
    let! _ := check_freqs [nx] in
    let! _ := check_freqs [ny] in
    let xfreq := fun j => deltax * fftfreq nx j in
    let yfreq := fun i => deltay * fftfreq ny i in
    let kernel := mk2 ny nx (fun i j => cis (- (2 * PI * (xfreq j + yfreq i)) - phase)) in
    let! _ := check_fft [ny; nx] in
    let spec := fftn data' in
    let result := ifftn (Arr [ny; nx] (fun k => Cmult (get spec k) (get kernel k))) in
    Ok (pick return_abs return_real result)
  | _ => Raise ValueError                                 (* unpacking error *)
  end.
