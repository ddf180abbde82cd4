(** Model of chi2_shifts.py chi2_shift_leastsq at memory level (Python 3: / is true division) *)
From Coq Require Import ZArith Lia List Reals Lra Bool.
From Coquelicot Require Import Complex.
From Verif Require Import Base NDim DFT Kernel Num Py M_fast_ffts M_shift M_convolve M_correlate M_chi2 M_register M_xcorr M_heap.
Import ListNotations.
Open Scope R_scope.

(** lmfit.minimize from the outside: it asks for residuals at points (xsh, ysh) of its choice and finally stops with a
    best point and standard errors (None if it has none) *)
Inductive minimizer :=
| Stop (x y : R) (ex ey : option R)
| Try (x y : R) (next : arr R -> minimizer).
(** an exception in the objective function ends lmfit.minimize *)
Fixpoint minimize (objective : R -> R -> res (arr R)) (s : minimizer) : res (R * R * option R * option R) :=
  match s with
  | Stop x y ex ey => Ok (x, y, ex, ey)
  | Try x y next => match objective x y with Ok r => minimize objective (next r) | Raise e => Raise e end
  end.

(** what err is once the images are prepared: lines 602-610 *)
Inductive errval := EVNone | EVScalar (s : R) | EVArr (a : arr num) | EVInf.

(** chi2_shifts.py:581-612 [residuals] for prepared images.  [map_coordinates img ysh xsh] is
    scipy.ndimage.map_coordinates(img, [yy+ysh, xx+xsh], mode=mode).  Slices with float bounds raise TypeError: xcen is a
    float, so this is every call with maxoff or with ignore_outside. *)
Definition residuals (has_fftw : bool) (map_coordinates : arr R -> R -> R -> arr R) (use_fft : bool) (maxoff : option Z)
    (ignore_outside : bool) (im1 im2 : arr R) (err : errval) (xsh ysh : R) : res (arr R) :=
  let shifted := fun (a : arr cnum) (r : arr R) =>
    if use_fft
    then let! s := shiftnd has_fftw a [- ysh; - xsh] 0 1 false false true in
         match s with RealArr x => Ok x | CplxArr _ => Raise Unmodelled end
    else Ok (map_coordinates r ysh xsh) in
  let! shifted_img := shifted (of_R im2) im2 in
  match maxoff with
  | Some _ => Raise TypeError
  | None =>
    if ignore_outside then Raise TypeError else
    let res0 := Arr (shape im1) (fun i => Rabs (get im1 i - get shifted_img i) / sqrt (IZR (prodZ (shape im1)))) in
    match err with
    | EVNone => Ok res0
    | EVScalar s => if Req_EM_T s 0 then Raise Unmodelled else Ok (amap (fun x => x / s) res0)
    | EVArr e =>
      if negb (if list_eq_dec Z.eq_dec (shape e) (shape im1) then true else false) then Raise Unmodelled else
      if any isnan e && negb use_fft then Raise Unmodelled else
      let! es := shifted (of_num e) (amap nan0 e) in
      if any (fun x => if Req_EM_T x 0 then true else false) es then Raise Unmodelled
      else Ok (Arr (shape im1) (fun i => get res0 i / get es i))
    | EVInf => Raise Unmodelled                                          (* Fourier-shifted or interpolated infinities *)
    end
  end.

(** im - im.mean(): a new array; all pixels are finite here *)
Definition minus_mean (a : arr num) : arr R :=
  let f := fun i => nan0 (get a i) in
  let mean := sumNR (shape a) f / IZR (prodZ (shape a)) in
  Arr (shape a) (fun i => f i - mean).

(** err[mask] = np.inf in place *)
Definition put_inf (l : loc) (mask : list Z -> bool) : M unit :=
  do! b := load l in
  match b with
  | BReal a => store l (BExt (Arr (shape a) (fun i => if mask i then XInf else match get a i with Fin r => XF r | NaN => XNaN end)))
  | _ => raise Unmodelled
  end.
(** the err name as the closure [residuals] sees it *)
Definition load_err (err : errloc) : M errval :=
  match err with
  | ELNone => ret EVNone
  | ELScalar s => ret (EVScalar s)
  | ELArr l => do! b := load l in match b with BReal a => ret (EVArr a) | _ => ret EVInf end
  end.

(** chi2_shifts.py:522-637 [chi2_shift_leastsq].  An error array whose shape is not that of im2 fails in the boolean
    indexing of line 564 (IndexError). *)
Definition chi2_shift_leastsq_mem (has_fftw has_lmfit has_scipy : bool) (map_coordinates : arr R -> R -> R -> arr R)
    (fit : R -> R -> option Z -> minimizer) (im1 im2 : loc) (err : errloc) (maxoff : option Z) (return_error : bool)
    (guessx guessy : R) (use_fft ignore_outside : bool) : M (list (option R)) :=
  do! a1 := loadR im1 in
  do! a2 := loadR im2 in
  if shapes_differ a1 a2 then raise ValueError else
  do! im1 := replace_nan im1 in
  do! a2 := loadR im2 in
  do! im2 := (if any isnan a2 then
      do! im2 := copy im2 in
      do! a2 := loadR im2 in
      do! _ := (match err with
                | ELArr l => do! b := load l in
                             match b with
                             | BReal e => if negb (if list_eq_dec Z.eq_dec (shape e) (shape a2) then true else false) then raise IndexError
                                          else put_inf l (fun i => isnan (get a2 i))
                             | _ => raise Unmodelled
                             end
                | _ => ret tt
                end) in
      do! a2 := loadR im2 in
      do! _ := put_at im2 (fun i => isnan (get a2 i)) (Fin 0) in
      ret im2
    else ret im2) in
  do! a1 := loadR im1 in
  do! a2 := loadR im2 in
  let i1 := minus_mean a1 in
  let i2 := minus_mean a2 in
  match shape a1 with
  | [_; _] =>
    if negb has_lmfit then raise ImportError else
    if negb use_fft && negb has_scipy then raise ImportError else
    do! ev := load_err err in
    do! r := lift (minimize (residuals has_fftw map_coordinates use_fft maxoff ignore_outside i1 i2 ev) (fit guessx guessy maxoff)) in
    let '(x, y, ex, ey) := r in
    ret (if return_error then [Some x; Some y; ex; ey] else [Some x; Some y])
  | _ => raise ValueError
  end.
