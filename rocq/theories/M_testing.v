(** Model of the helper functions of image_registration/tests/registration_testing.py (installed with the package) *)
From Coq Require Import ZArith Lia List Reals Lra Bool.
From Coquelicot Require Import Complex.
From Verif Require Import Base NDim DFT Kernel Num Py M_fast_ffts M_shift M_upsample M_kernel.
Import ListNotations.
Open Scope R_scope.

(** sum of all elements of a 2-D complex array; numpy's .sum() *)
Definition csum2 (ny nx : Z) (f : Z -> Z -> C) : C := sumC ny (fun i => sumC nx (fun j => f i j)).
(** np.abs of what shiftnd returns (return_real is on by default: real) *)
Definition np_abs (a : anyarr) : arr R := match a with RealArr r => amap Rabs r | CplxArr c => amap Cmod c end.

(** registration_testing.py:39-58 [chi2]: chi^2 between two images after shifting the second one back by (dx, dy).
    Two images and error map of the same 2-D shape (other shapes, which numpy may broadcast, are not modelled); infinities not
    modelled; the error map is finite and, after shifting, non-zero (a zero gives inf or nan in numpy).
    np.nan_to_num on the images (lines 43-44), err = ones (45-46), upsampling (48-51) or shifting (55-56), sum (58).
    The upsampled images are complex arrays, hence so is the result; otherwise it is real. *)
Definition t_chi2 (has_fftw : bool) (im1 im2 : arr num) (dx dy : R) (err : option (arr R)) (upsample : R) : res C :=
  let im1 := amap nan0 im1 in
  let im2 := amap nan0 im2 in
  let err := match err with Some e => e | None => amap (fun v => v * 0 + 1) im2 end in
  match shape im1, shape im2, shape err with
  | [ny; nx], [ny2; nx2], [ny3; nx3] =>
    if negb ((ny =? ny2) && (nx =? nx2) && (ny =? ny3) && (nx =? nx3))%Z then Raise Unmodelled
    else if Rlt_dec 1 upsample then
      let! a := upsample_image has_fftw (RtoCa im1) upsample (OSeq [IZR ny; IZR nx]) 1 false 0 0 in
      let! b := upsample_image has_fftw (RtoCa im2) upsample (OSeq [IZR ny; IZR nx]) 1 false (- dx * upsample) (- dy * upsample) in
      let! s := upsample_image has_fftw (RtoCa err) upsample (OSeq [IZR ny; IZR nx]) 1 false (- dx * upsample) (- dy * upsample) in
      Ok (csum2 ny nx (fun i j => let d := Cminus (get a [i; j]) (get b [i; j]) in
            Cdiv (Cmult d d) (Cmult (get s [i; j]) (get s [i; j]))))
    else
      let! b := shiftnd has_fftw (of_R im2) [- dy; - dx] 0 1 false false true in
      let! s := shiftnd has_fftw (of_R err) [- dy; - dx] 0 1 false false true in
      Ok (csum2 ny nx (fun i j => let d := get im1 [i; j] - get (np_abs b) [i; j] in
            RtoC (d * d / (get (np_abs s) [i; j] * get (np_abs s) [i; j]))))
  | _, _, _ => Raise Unmodelled
  end.

(** registration_testing.py:133-136 [edge_weight]: smooth(ones, smoothsize)**power; smooth never returns (C62) *)
Definition edge_weight (list_index_ok has_scipy : bool) (imsize : Z) (smoothsize : pnum) : res (arr R) :=
  smooth list_index_ok has_scipy [imsize; imsize] smoothsize KGaussian None None 6 (NFun np_sum).

(** registration_testing.py:123-131 [make_offset_extended]; [randn] is the array np.random.randn returns (line 125).
    Lines 126-127: taper.  Line 129: np.real(shift.shiftnd(img, (ysh, xsh)) + noise) *)
Definition make_offset_extended (list_index_ok has_scipy has_fftw : bool) (img : arr num) (xsh ysh : R) (randn : list Z -> R) (noise : R)
    (noise_taper : bool) : res (arr R) :=
  let! w := (if noise_taper then
               match shape img with
               | [] => Raise IndexError
               | n :: _ => let! w := edge_weight list_index_ok has_scipy n (PInt 5) in Ok (get w)
               end
             else Ok (fun _ => 1)) in
  let noise := Arr (shape img) (fun i => if noise_taper then randn i * noise / w i else randn i * noise) in
  let! s := shiftnd has_fftw (of_num img) [ysh; xsh] 0 1 false false true in
  match s with
  | CplxArr c => Ok (Arr (shape c) (fun i => Re (Cplus (get c i) (RtoC (get noise i)))))
  | RealArr r => Ok (Arr (shape r) (fun i => get r i + get noise i))
  end.
