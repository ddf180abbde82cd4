(** Model of the experiment drivers of image_registration/tests/registration_testing.py (Python 3) *)
From Coq Require Import ZArith Lia List Reals Lra Bool.
From Coquelicot Require Import Complex.
From Verif Require Import Base NDim DFT Kernel Num Py Sum2 M_fast_ffts M_shift M_upsample M_convolve M_correlate M_kernel Arg M_chi2 M_xcorr M_register M_testing M_testing2.
Import ListNotations.
Open Scope R_scope.

(** a list comprehension, or a loop that appends: the first exception stops it *)
Fixpoint each {A B : Type} (f : A -> res B) (l : list A) : res (list B) :=
  match l with
  | [] => Ok []
  | a :: l' => let! b := f a in let! bs := each f l' in Ok (b :: bs)
  end.
(** range(a, b) *)
Definition range (a b : Z) : list Z := map (fun k => (a + Z.of_nat k)%Z) (seq 0 (Z.to_nat (b - a))).
(** the keyword arguments of make_offset_images, in its order *)
Record pairargs := Pair { pa_width : R; pa_amp : R; pa_noise : R; pa_xcen : pnum; pa_ycen : pnum }.
Definition pair_images (xsh ysh imsize : R) (p : pairargs) (draw : Z -> Z -> R) : res (arr R * arr R * num) :=
  make_offset_images xsh ysh imsize (pa_width p) (pa_amp p) (pa_noise p) (pa_xcen p) (pa_ycen p) draw.
(** a registration function called as shift_func(im1, im2, gaussfit=, maxoff=, return_error=) *)
Definition method (A : Type) := arr num -> arr num -> bool -> option pnum -> bool -> res A.

(** registration_testing.py:187-210 [do_n_fits]; [draws k] is the random array of the k-th fit; sfkwargs is not used *)
Definition do_n_fits {A : Type} (nfits : Z) (xsh ysh imsize : R) (gaussfit : bool) (maxoff : option pnum) (return_error : bool)
    (shift_func : method A) (p : pairargs) (draws : Z -> Z -> Z -> R) : res (list A) :=
  each (fun k => let! (im1, im2, _) := pair_images xsh ysh imsize p (draws k) in
                 shift_func (amap Fin im1) (amap Fin im2) gaussfit maxoff return_error) (range 0 nfits).

(** registration_testing.py:212-237 [do_n_fits_register]: (xoff, yoff, mean squared difference of im1 and the registered image) *)
Definition do_n_fits_register (has_fftw : bool) (nfits : Z) (xsh ysh imsize usfac : R) (p : pairargs) (draws : Z -> Z -> Z -> R) : res (list (R * R * R)) :=
  each (fun k => let! (im1, im2, _) := pair_images xsh ysh imsize p (draws k) in
                 let! out := register_images has_fftw (amap Fin im1) (amap Fin im2) usfac true false true None 1 false in
                 match out with
                 | [RgNum x; RgNum y; RgImg reg] =>
                   Ok (x, y, sumNR (shape im1) (fun q => (get im1 q - get reg q) ^ 2) / IZR (prodZ (shape im1)))
                 | _ => Raise ValueError
                 end) (range 0 nfits).

(** registration_testing.py:239-289 [do_n_extended_fits]; gaussfit and maxoff are parameters of the function but are not used.
    [re], [im]: the draws of make_extended; [draws k]: that of the k-th make_offset_extended.  zeropad: np.zeros(newsize), then
    slice bounds that are floats in Python 3; unsharp_mask: smooth, which raises (C62), on the first image; doplot: offim is
    read before it is assigned *)
Definition do_n_extended_fits {A : Type} (list_index_ok has_scipy has_fftw : bool) (nfits : Z) (xsh ysh imsize : R) (gaussfit : bool) (maxoff : option pnum)
    (return_error : bool) (powerlaw noise : R) (unsharp_mask : bool) (smoothfactor : pnum) (zeropad : Z) (shift_func : arr num -> arr num -> bool -> res A) (doplot : bool)
    (noise_taper : bool) (re im : Z -> Z -> R) (draws : Z -> list Z -> R) : res (list A) :=
  let! image := make_extended imsize None powerlaw re im in
  let! image := (if (0 <? zeropad)%Z then Raise TypeError else Ok image) in
  if unsharp_mask then
    each (fun k =>
      let! sm := smooth list_index_ok has_scipy (shape image) smoothfactor KGaussian None None 6 (NFun np_sum) in
      let! offim := make_offset_extended list_index_ok has_scipy has_fftw (amap Fin image) xsh ysh (draws k) noise noise_taper in
      let! sm2 := smooth list_index_ok has_scipy (shape offim) smoothfactor KGaussian None None 6 (NFun np_sum) in
      shift_func (amap Fin (Arr (shape image) (fun q => get image q - get (sm : arr R) q))) (amap Fin (Arr (shape offim) (fun q => get offim q - get (sm2 : arr R) q))) return_error)
      (range 0 nfits)
  else if doplot then Raise UnboundLocalError
  else
    each (fun k =>
      let! offim := make_offset_extended list_index_ok has_scipy has_fftw (amap Fin image) xsh ysh (draws k) noise noise_taper in
      shift_func (amap Fin image) (amap Fin offim) return_error) (range 0 nfits).

(** registration_testing.py:294-308 [run_tests], up to the print, whose format string (line 302: only the second half, % binds more
    tightly than +) does not take eight numbers; [one] is the final cross_correlation_shifts call on the last pair of images *)
Definition run_tests {A B : Type} (xsh ysh imsize amp : R) (nfits : Z) (maxoff : option pnum) (fits : method A) (one : arr num -> arr num -> res B)
    (draws : Z -> Z -> Z -> R) (last : Z -> Z -> R) : res B :=
  let p := Pair 3 amp 1 (PInt 50) (PInt 50) in
  let! _ := do_n_fits nfits xsh ysh imsize false maxoff false fits p draws in
  let! (im1, im2, _) := pair_images xsh ysh imsize p last in
  let! _ := one (amap Fin im1) (amap Fin im2) in
  Raise TypeError.

(** registration_testing.py:310-312 [plot_tests], up to the plot: the fifth positional argument of do_n_fits is gaussfit *)
Definition plot_tests {A : Type} (nfits : Z) (xsh ysh imsize amp : R) (fits : method A) (draws : Z -> Z -> Z -> R) : res (list A) :=
  do_n_fits nfits xsh ysh imsize (if Req_EM_T amp 0 then false else true) (Some (PFloat 12)) true fits (Pair 3 1000 1 (PInt 50) (PInt 50)) draws.

(** registration_testing.py:352-361 [accuracy_plot], up to the plot: dftregistration is not imported *)
Definition accuracy_plot (xsh ysh amp width imsize : R) (a b : Z) (draw : Z -> Z -> R) : res (list R) :=
  let! _ := pair_images xsh ysh imsize (Pair width amp 1 (PInt 50) (PInt 50)) draw in
  each (fun _ => Raise NameError) (range a b).

(** registration_testing.py:368-379 [accuracy_plot_extended], up to the plot: the distances plotted (dr); [reg usf] is the
    (x, y) register_images returns for the single fit of that factor *)
Definition accuracy_plot_extended (xsh ysh : R) (a b : Z) (reg : Z -> res (R * R)) : res (list R) :=
  each (fun usf => let! (dy, dx) := reg usf in Ok (sqrt ((xsh + dx) ^ 2 + (ysh + dy) ^ 2))) (range a b).

(** registration_testing.py:403-416 [register_accuracy_test] *)
Definition register_accuracy_test (has_fftw : bool) (im1 im2 : arr num) (a b : Z) (zeromean : bool) (maxoff : option Z) (nthreads : Z) (use_np : bool) : res (list (R * R)) :=
  each (fun usf => let! out := register_images has_fftw im1 im2 (IZR usf) false false zeromean maxoff nthreads use_np in
                   match out with [RgNum dy; RgNum dx] => Ok (dx, dy) | _ => Raise ValueError end) (range a b).

(** registration_testing.py:418-458 [register_noise_test] with a number as noise, return_error=False; the extra noise is the
    random array times the level (line 450) *)
Definition register_noise_test (im1 im2 : arr num) (ntests : Z) (noise : R) (register_method : arr num -> arr num -> res (R * R)) (draws : Z -> list Z -> R) : res (list (R * R)) :=
  each (fun k => let! (dx, dy) := register_method im1 (Arr (shape im2) (fun q => match get im2 q with Fin v => Fin (v + draws k q * noise) | NaN => NaN end)) in
                 Ok (dx, dy)) (range 0 ntests).
