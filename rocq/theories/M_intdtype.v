(** Model of chi2n_map (image_registration/chi2_shifts.py:434-519) for images of an integer dtype.  Arithmetic on numpy integer arrays is modulo
    2^bits; everything that involves a float is exact real arithmetic as in M_chi2. *)
From Coq Require Import ZArith Lia List Reals Lra Bool.
From Coquelicot Require Import Complex.
From Verif Require Import Base NDim DFT Kernel Py M_fast_ffts M_shift M_convolve M_correlate M_chi2.
Import ListNotations.
Open Scope R_scope.

(** a numpy integer dtype: int8 .. int64, uint8 .. uint64 *)
Record idtype := IDtype { signed : bool; bits : Z }.
Definition lowest (dt : idtype) : Z := if signed dt then (- 2 ^ (bits dt - 1))%Z else 0%Z.
(** the value of the dtype congruent to z *)
Definition wrapZ (dt : idtype) (z : Z) : Z := ((z - lowest dt) mod 2 ^ bits dt + lowest dt)%Z.
(** a ** 2 elementwise *)
Definition int_square (dt : idtype) (z : Z) : Z := wrapZ dt (z * z).
(** the image as floats *)
Definition as_float (a : arr Z) : arr num := amap (fun z => Fin (IZR z)) a.

(** chi2_shifts.py:475-519 for integer images and a float error (None, scalar or array).  zeromean subtracts a float mean, after which the images are
    float arrays.  Otherwise np.nan_to_num copies them, im1**2 and im2**2 (lines 491, 499, 502) stay in their dtype, and correlate2d converts to float. *)
Definition chi2n_map_int (e : env) (dt1 dt2 : idtype) (im1 im2 : arr Z) (err : errarg) (b : boundary) (nthreads : Z)
    (zeromean use_numpy_fft return_all reduced allow_huge : bool) : res chi2res :=
  if zeromean then chi2n_map e (as_float im1) (as_float im2) err b nthreads true use_numpy_fft return_all reduced allow_huge else
  if negb (if list_eq_dec Z.eq_dec (shape im1) (shape im2) then true else false) then Raise ValueError else
  let sh := shape im1 in
  let corr := fun x y => correlate2d (e_fftw e) (e_gb e) (fin_arr sh x) (fin_arr sh y) b nthreads use_numpy_fft allow_huge in
  let finish := fun (g1 g2 : list Z -> Z) (er : list Z -> R) (t3 : term3t) =>
    let term1 := sumNR sh (fun i => IZR (int_square dt2 (g2 i)) / (er i) ^ 2) in
    let! cc := corr (fun i => IZR (g1 i)) (fun i => IZR (g2 i) / (er i) ^ 2) in
    let term2 := amap (fun x => (-2) * x) cc in
    let chi2 := Arr sh (fun i => term1 + get term2 i + match t3 with T3scalar r => r | T3array a => get a i end) in
    let! chi2 := if reduced
                 then (if (prodZ sh =? 2)%Z then Raise Unmodelled else Ok (amap (fun x => x / (IZR (prodZ sh) - 2)) chi2))
                 else Ok chi2 in
    Ok (if return_all then Chi2All chi2 term1 term2 t3 else Chi2Only chi2) in
  match err with
  | ErrArr er =>
    if negb (if list_eq_dec Z.eq_dec (shape er) sh then true else false) then Raise IndexError else
    let bad := fun i => if Req_EM_T (nan0 (get er i)) 0 then true else false in
    let g2 := fun i => if bad i then 0%Z else get im2 i in
    let g1 := fun i => if bad i then 0%Z else get im1 i in
    let er' := fun i => if bad i then 1 else nan0 (get er i) in
    let! term3 := corr (fun i => IZR (int_square dt1 (g1 i))) (fun i => 1 / (er' i) ^ 2) in
    finish g1 g2 er' (T3array term3)
  | ErrScalar s =>
    if Req_EM_T s 0 then Raise Unmodelled else
    finish (get im1) (get im2) (fun _ => s) (T3scalar (sumNR sh (fun i => IZR (int_square dt1 (get im1 i)) / s ^ 2)))
  | ErrNone => finish (get im1) (get im2) (fun _ => 1) (T3scalar (sumNR sh (fun i => IZR (int_square dt1 (get im1 i)) / 1 ^ 2)))
  end.

(** chi2_shifts.py:13-252 [chi2_shift] for integer images: nothing after the map uses the pixel values *)
Definition chi2_shift_int (e : env) (dt1 dt2 : idtype) (im1 im2 : arr Z) (err : errarg) (upsample_factor : usarg) (b : boundary) (nthreads : Z)
    (use_numpy_fft zeromean : bool) (nfitted : R) (verbose return_error return_chi2array : bool)
    (max_auto_size : Z) (max_nsig : R) (allow_huge : bool) : res (list retval) :=
  let! r := chi2n_map_int e dt1 dt2 im1 im2 err b nthreads zeromean use_numpy_fft true false allow_huge in
  chi2_shift_tail e (shape im1) r upsample_factor nfitted verbose return_error return_chi2array max_auto_size max_nsig.
