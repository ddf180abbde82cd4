(** Model of the argument conversion of convolvend (image_registration/fft_tools/convolve_nd.py:148-172) for masked arrays *)
From Coq Require Import ZArith List Reals Bool.
From Verif Require Import Base NDim Py M_convolve.
Import ListNotations.

(** an argument: a plain array, or a numpy.ma.MaskedArray with its data and its mask (true: the pixel is invalid) *)
Inductive convarg := Plain (a : arr cnum) | Masked (data : arr cnum) (mask : list Z -> bool).
(** np.asarray(x, dtype=complex) (external, documented): the base-class array of the data; the mask is not part of it *)
Definition np_asarray (x : convarg) : convarg := match x with Plain a => Plain a | Masked d _ => Plain d end.
(** np.ma.is_masked(x) (external, documented): x is a masked array with at least one masked pixel *)
Definition is_masked (x : convarg) : bool := match x with Plain _ => false | Masked d m => existsN (shape d) m end.
(** the data as a plain array *)
Definition data_of (x : convarg) : arr cnum := match x with Plain a => a | Masked d _ => d end.
(** convolve_nd.py:166-168: array = np.array(array); array[mask] = np.nan *)
Definition mask_to_nan (x : convarg) : arr cnum :=
  match x with Plain a => a | Masked d m => Arr (shape d) (fun i => if m i then (NaN, Fin 0) else get d i) end.

(** convolve_nd.py:38-328 with any arguments: lines 148-149, 165-172, then [convolvend] on plain arrays *)
Definition convolvend_any (has_fftw np_complex_ok list_index_ok : bool) (array kernel : convarg)
    (b : boundary) (fill_value : num) (crop return_fft fftshift fft_pad psf_pad interpolate_nan ignore_edge_zeros : bool)
    (min_wt : R) (normalize_kernel : normk) (use_numpy_fft : bool) (nthreads : Z) : res convres :=
  let array := np_asarray array in
  let kernel := np_asarray kernel in
  let array := if is_masked array then mask_to_nan array else data_of array in
  let kernel := if is_masked kernel then mask_to_nan kernel else data_of kernel in
  convolvend has_fftw np_complex_ok list_index_ok array kernel b fill_value crop return_fft fftshift fft_pad psf_pad
    interpolate_nan ignore_edge_zeros min_wt normalize_kernel use_numpy_fft nthreads.
