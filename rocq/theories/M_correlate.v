(** Model of image_registration/fft_tools/correlate2d.py (and of the part of astropy.convolution.convolve_fft it uses) *)
From Coq Require Import ZArith Lia List Reals Lra Bool.
From Coquelicot Require Import Complex.
From Verif Require Import Base NDim DFT Kernel Py M_fast_ffts M_shift M_convolve.
Import ListNotations.
Open Scope R_scope.

(** astropy.convolution.convolve_fft(array, kernel, normalize_kernel=False, nan_treatment='fill', fftn=, ifftn=,
    boundary=, allow_huge=): external code, modelled from its documentation and source.  NaN pixels of either argument
    count as fill_value = 0; 'fill' (and None) pads to at least the sum of the two shapes (power of two), 'wrap' does
    not pad; 'extend' raises NotImplementedError; a padded complex array of more than [gb] bytes (1 GB; the exact
    number of bytes depends on the astropy release, hence a parameter) raises ValueError unless allow_huge.
    Simplifications: other boundary strings and complex-valued images are not modelled. *)
Definition convolve_fft (fftn ifftn : arr C -> arr C) (gb : Z) (array kernel : arr num) (b : boundary)
    (allow_huge : bool) : res (arr R) :=
  if negb (Nat.eqb (ndim array) (ndim kernel)) then Raise ValueError else
  let! pads := match b with
    | BNone | BFill => Ok (true, true)
    | BWrap => Ok (false, false)
    | BExtend => Raise NotImplementedError
    | BOther => Raise Unmodelled
    end in
  let '(fpad, ppad) := pads in
  let ash := shape array in
  let ksh := shape kernel in
  let N := newshape fpad ppad ash ksh in
  if negb allow_huge && (gb <? 16 * prodZ N)%Z then Raise ValueError else
  let! _ := check_fft N in
  let bigarray := Arr N (embed N ash (fun i => RtoC (nan0 (get array i))) (RtoC 0)) in
  let bigkernel := embed N ksh (fun i => RtoC (nan0 (get kernel i))) (RtoC 0) in
  let arrayfft := fftn bigarray in
  let kernfft := fftn (Arr N (ifftshiftN N bigkernel)) in
  let fftmult := Arr N (fun k => Cmult (get arrayfft k) (get kernfft k)) in
  let conv := ifftn fftmult in
  Ok (crop_to N ash (fun i => Re (get conv i))).

(** im2[::-1, ::-1] (correlate2d.py:42): too few axes raise IndexError *)
Definition rev2 {A} (a : arr A) : res (arr A) :=
  match shape a with
  | ny :: nx :: _ => Ok (Arr (shape a) (fun i => match i with
                          | y :: x :: l => get a ((ny - 1 - y)%Z :: (nx - 1 - x)%Z :: l)
                          | _ => get a i end))
  | _ => Raise IndexError
  end.

(** correlate2d.py:9-44 [correlate2d] on real images (np.conjugate is the identity there); of the extra keyword
    arguments only allow_huge is modelled *)
Definition correlate2d (has_fftw : bool) (gb : Z) (im1 im2 : arr num) (b : boundary) (nthreads : Z)
    (use_numpy_fft allow_huge : bool) : res (arr R) :=
  let '(fftn, ifftn) := get_ffts has_fftw nthreads use_numpy_fft in
  let! r := rev2 im2 in
  convolve_fft fftn ifftn gb im1 r b allow_huge.
