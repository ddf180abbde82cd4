(** Model of image_registration/fft_tools/fast_ffts.py *)
From Coq Require Import ZArith Lia List Reals Lra Bool.
From Coquelicot Require Import Complex.
From Verif Require Import Base NDim DFT Kernel Py.
Import ListNotations.
Open Scope R_scope.

(** numpy.fft.fftn / ifftn over all axes (used at fast_ffts.py:46-47, 50-51).  External code: modelled by its
    documented definition. *)
Definition np_fftn (a : arr C) : arr C := Arr (shape a) (dft (shape a) (get a)).
Definition np_ifftn (a : arr C) : arr C := Arr (shape a) (idft (shape a) (get a)).

(** fftw3.Plan(inp, out, direction).execute(): FFTW's documented transforms, both unnormalised.
    External code.  [nthreads] only affects scheduling. *)
Definition fftw_execute (forward : bool) (nthreads : Z) (a : arr C) : arr C :=
  Arr (shape a) (fun k =>
    sumNC (shape a) (fun y => Cmult (get a y)
      (cis ((if forward then -1 else 1) * (2 * PI * phZ (shape a) y k))))).

(** fast_ffts.py:8-14 [fftwn] ([astype]/[copy] only protect the caller's buffer) *)
Definition fftwn (nthreads : Z) (a : arr C) : arr C := fftw_execute true nthreads a.

(** fast_ffts.py:16-22 [ifftwn]: divides by np.size *)
Definition ifftwn (nthreads : Z) (a : arr C) : arr C :=
  amap (fun z => Cmult (RtoC (/ IZR (prodZ (shape a)))) z) (fftw_execute false nthreads a).

(** fast_ffts.py:35-53 [get_ffts]; [has_fftw] is the module flag set at lines 4-26 *)
Definition get_ffts (has_fftw : bool) (nthreads : Z) (use_numpy_fft : bool)
  : (arr C -> arr C) * (arr C -> arr C) :=
  if has_fftw && negb use_numpy_fft then (fftwn nthreads, ifftwn nthreads)
  else if use_numpy_fft then (np_fftn, np_ifftn)
  else (np_fftn, np_ifftn).
