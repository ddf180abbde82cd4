(** Model of the remaining image-making helpers of image_registration/tests/registration_testing.py *)
From Coq Require Import ZArith Lia List Reals Lra Bool.
From Coquelicot Require Import Complex.
From Verif Require Import Base NDim DFT Kernel Num Py M_fast_ffts M_shift M_upsample M_kernel Arg M_chi2 M_xcorr M_register.
Import ListNotations.
Open Scope R_scope.

(** registration_testing.py:31: the slice round(mlarge/(zoomfac*2.)):round(mlarge/(zoomfac*2.)*3) of an axis of length
    mlarge = m*zoomfac, as (start, length).  Python 3's round of a float: half to even. *)
Definition raw_slice (m zoomfac : Z) : Z * Z :=
  let q := IZR (m * zoomfac) / (IZR zoomfac * 2) in pyslice (m * zoomfac) (roundR q) (roundR (q * 3)).
(** numpy's rule for assigning an axis of length m to a slice of length l *)
Definition can_assign (m l : Z) : bool := (m =? l)%Z || (m =? 1)%Z.
Definition source (m q : Z) : Z := if (m =? 1)%Z then 0%Z else q.

(** registration_testing.py:17-37 [upsample_ft_raw]; two transforms of the same shape (other shapes, which numpy may broadcast,
    are not modelled), integer zoomfac.  [round_is_int] is Python 3, where round returns an integer (in Python 2 it returns a
    float, which numpy >= 1.12 rejects as a slice bound).
    Lines 25-28: shape and zeros; 31: the product of the centred transforms assigned to the slice; 35: ifft2(ifftshift(.)) *)
Definition upsample_ft_raw (round_is_int : bool) (buf1ft buf2ft : arr C) (zoomfac : Z) : res (arr C) :=
  match shape buf1ft, shape buf2ft with
  | [m; n], [m2; n2] =>
    let mlarge := (m * zoomfac)%Z in
    let nlarge := (n * zoomfac)%Z in
    if ((mlarge <? 0) || (nlarge <? 0))%Z then Raise ValueError else
    if negb ((m =? m2) && (n =? n2))%Z then Raise Unmodelled else
    let product := fun i j => Cmult (fftshift2 m n (g2 buf1ft) i j) (Cconj (fftshift2 m n (g2 buf2ft) i j)) in
    if (zoomfac =? 0)%Z then Raise ZeroDivisionError else
    if negb round_is_int then Raise TypeError else
    let '(r0, rl) := raw_slice m zoomfac in
    let '(c0, cl) := raw_slice n zoomfac in
    if negb (can_assign m rl && can_assign n cl) then Raise ValueError else
    let cclarge := fun i j => if ((r0 <=? i) && (i <? r0 + rl) && (c0 <=? j) && (j <? c0 + cl))%Z
                              then product (source m (i - r0)) (source n (j - c0)) else RtoC 0 in
    let! _ := check_fft [mlarge; nlarge] in
    Ok (np_ifftn (mk2 mlarge nlarge (ifftshift2 mlarge nlarge cclarge)))
  | _, _ => Raise ValueError
  end.

(** registration_testing.py:67-85 [make_offset_images]; [randn] is the array np.random.randn returns (line 83).
    [width], [amp], [noiseamp] are Python floats.  Line 73: int(imsize); 75-76: a float centre cannot be subtracted in place
    from an integer array; 77-79: the reference image; 81: the tolerance (Python division by a zero noiseamp; nan for a negative
    amplitude; a zero amplitude gives inf, width 0 gives nan pixels: not modelled); 83: the offset image. *)
Definition make_offset_images (xsh ysh imsize width amp noiseamp : R) (xcen ycen : pnum) (randn : Z -> Z -> R) : res (arr R * arr R * num) :=
  let n := truncR imsize in
  if (n <? 0)%Z then Raise ValueError else
  match xcen, ycen with
  | PInt xc, PInt yc =>
    if Req_EM_T width 0 then Raise Unmodelled else
    let new_r := fun y x => sqrt (IZR ((x - xc) * (x - xc)) + IZR ((y - yc) * (y - yc))) in
    let image := mk2 n n (fun y x => amp * exp (- (new_r y x) ^ 2 / (2 * width ^ 2))) in
    if Req_EM_T noiseamp 0 then Raise ZeroDivisionError else
    let q := 2 * PI * width ^ 2 * amp / noiseamp in
    if Req_EM_T q 0 then Raise Unmodelled else
    let tolerance := if Rlt_dec q 0 then NaN else Fin (3 * 1 / sqrt q) in
    let new_image := mk2 n n (fun y x => randn y x * noiseamp +
                       amp * exp (- ((IZR (x - xc) - xsh) ^ 2 + (IZR (y - yc) - ysh) ^ 2) / (2 * width ^ 2))) in
    Ok (image, new_image, tolerance)
  | _, _ => Raise TypeError
  end.

(** registration_testing.py:87-121 [make_extended]; [randn1], [randn2] are the two arrays np.random.randn returns, imsize2 an
    integer.  Lines 100-102; 103-108: the distance from the centre; 111-117: the amplitudes, zero where the distance is zero
    (there rr is nan); 119: abs(fftshift(ifft2(powermap))) *)
Definition ext_centre (n : Z) : R := IZR n / 2 - (1 - IZR (n mod 2)).
Definition ext_rr (ny nx y x : Z) : R := sqrt ((IZR x - ext_centre nx) ^ 2 + (IZR y - ext_centre ny) ^ 2).
Definition make_extended (imsize : R) (imsize2 : option Z) (powerlaw : R) (randn1 randn2 : Z -> Z -> R) : res (arr R) :=
  let nx := truncR imsize in
  let ny := match imsize2 with None => nx | Some k => k end in
  if ((ny <? 0) || (nx <? 0))%Z then Raise ValueError else
  let powermap := fun y x =>
    let rr := ext_rr ny nx y x in
    if Req_EM_T rr 0 then RtoC 0
    else Cplus (RtoC (randn1 y x * Rpower rr (- powerlaw / 2))) (Cmult (RtoC (randn2 y x * Rpower rr (- powerlaw / 2))) Ci) in
  let! _ := check_fft [ny; nx] in
  Ok (mk2 ny nx (fun y x => Cmod (fftshift2 ny nx (g2 (np_ifftn (mk2 ny nx powermap))) y x))).
