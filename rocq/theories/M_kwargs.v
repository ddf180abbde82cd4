(** Keyword arguments passed on by register_fits, cross_correlation_shifts and correlate2d ( **kwargs ) *)
From Coq Require Import ZArith Lia List Reals Lra Bool String.
From Coquelicot Require Import Complex.
From Verif Require Import Base NDim DFT Kernel Num Py M_shift M_convolve M_correlate M_xcorr M_chi2 M_fits M_fits2.
Import ListNotations.
Open Scope R_scope.

(** values that can be given for an option *)
Inductive pyval := VNone | VBool (b : bool) | VInt (z : Z) | VFloat (r : R) | VStr (s : string) | VHdr (h : header) | VOther.
(** a dictionary of keyword arguments (a Python dictionary has every key once) *)
Definition kwargs := list (string * pyval).
Fixpoint kwget (K : kwargs) (k : string) : option pyval :=
  match K with [] => None | (k', v) :: K' => if String.eqb k' k then Some v else kwget K' k end.
Definition mem (k : string) (l : list string) : bool := existsb (String.eqb k) l.

(** Python's binding of f(a, b=..., **K): [taken] are the parameters already given (positionally or by name), [free] the
    remaining ones, [varkw] whether f itself has a ** parameter.  "got multiple values for argument" and "got an unexpected
    keyword argument" are TypeErrors, raised before the body runs. *)
Definition bind_kw (taken free : list string) (varkw : bool) (K : kwargs) : res unit :=
  if existsb (fun c => mem (fst c) taken) K then Raise TypeError
  else if varkw || forallb (fun c => mem (fst c) free) K then Ok tt
  else Raise TypeError.

(** reading one option; a value of an unexpected type is outside the model *)
Definition opt_bool (K : kwargs) (k : string) (d : bool) : res bool :=
  match kwget K k with None => Ok d | Some (VBool b) => Ok b | Some (VInt z) => Ok (negb (z =? 0)%Z) | Some VNone => Ok false | _ => Raise Unmodelled end.
Definition opt_int (K : kwargs) (k : string) (d : Z) : res Z :=
  match kwget K k with None => Ok d | Some (VInt z) => Ok z | _ => Raise Unmodelled end.
Definition opt_num (K : kwargs) (k : string) (d : R) : res R :=
  match kwget K k with None => Ok d | Some (VInt z) => Ok (IZR z) | Some (VFloat r) => Ok r | _ => Raise Unmodelled end.
Definition opt_us (K : kwargs) (k : string) : res usarg :=
  match kwget K k with
  | None => Ok UAuto
  | Some (VInt z) => Ok (UInt z)
  | Some (VFloat r) => Ok (UFloat r)
  | Some (VStr s) => if String.eqb s "auto" then Ok UAuto else Raise Unmodelled
  | _ => Raise Unmodelled
  end.
Definition opt_boundary (K : kwargs) (k : string) (d : boundary) : res boundary :=
  match kwget K k with
  | None => Ok d
  | Some VNone => Ok BNone
  | Some (VStr s) => Ok (if String.eqb s "fill" then BFill else if String.eqb s "wrap" then BWrap else if String.eqb s "extend" then BExtend else BOther)
  | _ => Raise Unmodelled
  end.
Definition opt_hdr (K : kwargs) (k : string) : res (option header) :=
  match kwget K k with None => Ok None | Some VNone => Ok None | Some (VHdr h) => Ok (Some h) | _ => Raise Unmodelled end.

(** chi2_shifts.py:13-16: the parameters of [chi2_shift] beside im1, im2, err and return_error *)
Definition chi2_shift_options : list string :=
  ["upsample_factor"; "boundary"; "nthreads"; "use_numpy_fft"; "zeromean"; "nfitted"; "verbose"; "return_chi2array";
   "max_auto_size"; "max_nsig"; "allow_huge"]%string.
(** chi2_shift(im1, im2, err=err, return_error=True, **K) *)
Definition chi2_shift_kw (e : env) (im1 im2 : arr num) (err : option (arr num)) (K : kwargs) : res (list retval) :=
  let! _ := bind_kw ["im1"; "im2"; "err"; "return_error"]%string chi2_shift_options false K in
  let! u := opt_us K "upsample_factor" in
  let! b := opt_boundary K "boundary" BWrap in
  let! nt := opt_int K "nthreads" 1 in
  let! np := opt_bool K "use_numpy_fft" false in
  let! zm := opt_bool K "zeromean" false in
  let! nf := opt_num K "nfitted" 2 in
  let! vb := opt_bool K "verbose" false in
  let! ra := opt_bool K "return_chi2array" false in
  let! ms := opt_int K "max_auto_size" 512 in
  let! mn := opt_num K "max_nsig" (11 / 10) in
  let! ah := opt_bool K "allow_huge" false in
  chi2_shift e im1 im2 (err_of err) u b nt np zm nf vb true ra ms mn ah.

(** register_images.py:9-11 has no parameter err *)
Definition register_images_kw (im1 im2 : arr num) (err : option (arr num)) (K : kwargs) : res (list retval) := Raise TypeError.

(** match_images.py:34-91 [match_fits] called as at :149-152, match_fits(f1, f2, return_header=True, sigma_cut=sigma_cut, **K);
    it has a ** parameter itself, which it ignores *)
Definition match_fits_kw (W : world) (f1 f2 : src) (sigma_cut : option R) (K : kwargs) : res (arr num * arr num * header) :=
  let! _ := bind_kw ["fitsfile1"; "fitsfile2"; "return_header"; "sigma_cut"]%string ["header"; "use_mad_std"]%string true K in
  let! hdr := opt_hdr K "header" in
  let! mad := opt_bool K "use_mad_std" true in
  match_fits W f1 f2 hdr sigma_cut mad.

(** match_images.py:12-31 [project_to_header](fitsfile, header, **K): passes K on to reproject.reproject_interp, which is
    external: [reproject_options] are the names it accepts, [reproject] is the call with such options *)
Definition project_to_header_kw (reproject_options : list string) (reproject : src -> header -> kwargs -> res (arr num))
    (f : src) (h : header) (K : kwargs) : res (arr num) :=
  let! _ := bind_kw ["fitsfile"; "header"]%string [] true K in
  let! _ := bind_kw [] reproject_options false K in
  reproject f h K.

(** match_images.py:94-184 [register_fits] with further keyword arguments K (none of them a parameter of register_fits itself) *)
Definition register_fits_kw (has_fftw : bool) (W : world) (reproject_options : list string)
    (reproject : src -> header -> kwargs -> res (arr num)) (fitsfile1 fitsfile2 : src) (errfile : option src) (return_error : bool)
    (register_method : arr num -> arr num -> option (arr num) -> kwargs -> res (list retval))
    (return_cropped_images return_shifted_image return_header : bool) (sigma_cut : option R) (K : kwargs) : res (list fitem) :=
  let! m := match_fits_kw W fitsfile1 fitsfile2 sigma_cut K in
  let '(im1, im2, h) := m in
  let! err := match errfile with
    | Some f => let! a := project_to_header_kw reproject_options reproject f h K in Ok (Some a)
    | None => Ok None
    end in
  let! r := register_method im1 im2 err K in
  match r with
  | [RNum xoff; RNum yoff; RNum exoff; RNum eyoff] =>
    let! w := io_wcs W h in
    let '(c1, c2) := match w_cd w with Some (c11, _, _, c22) => (c11, c22) | None => w_cdelt w end in
    let returns := [FNum xoff; FNum yoff; FNum (xoff * c1); FNum (yoff * c2)] in
    let returns := if return_error then returns ++ [FNum exoff; FNum eyoff; FNum (exoff * c1); FNum (eyoff * c2)] else returns in
    let returns := if return_cropped_images then returns ++ [FImg im1; FImg im2] else returns in
    let! returns := (if return_shifted_image then
        let! s := shift2d has_fftw (of_num im2) (- xoff) (- yoff) 0 1 false false true in Ok (returns ++ [FShifted s])
      else Ok returns) in
    Ok (if return_header then returns ++ [FHdr h] else returns)
  | _ => Raise ValueError                                            (* unpacking into four names *)
  end.

(** correlate2d.py:9-44 [correlate2d](im1, im2, **K) with every keyword the caller may give.  [astropy_options] are the names
    astropy's convolve_fft accepts beside array and kernel; normalize_kernel, fftn, ifftn, boundary and nan_treatment are given
    explicitly (lines 42-44), so K must not contain them a second time ("boundary" is a parameter of correlate2d itself).
    Of astropy's options only allow_huge has a meaning in the model. *)
Definition correlate2d_kw (has_fftw : bool) (gb : Z) (astropy_options : list string) (im1 im2 : arr num) (K : kwargs) : res (arr R) :=
  let! _ := bind_kw ["im1"; "im2"]%string [] true K in
  let rest := filter (fun c => negb (mem (fst c) ["boundary"; "nthreads"; "use_numpy_fft"]%string)) K in
  let! _ := rev2 im2 in                                               (* evaluated before the call *)
  let! _ := bind_kw ["array"; "kernel"; "normalize_kernel"; "fftn"; "ifftn"; "boundary"; "nan_treatment"]%string astropy_options false rest in
  let! b := opt_boundary K "boundary" BWrap in
  let! nt := opt_int K "nthreads" 1 in
  let! np := opt_bool K "use_numpy_fft" false in
  let! ah := opt_bool K "allow_huge" false in
  if forallb (fun c => mem (fst c) ["boundary"; "nthreads"; "use_numpy_fft"; "allow_huge"]%string) K
  then correlate2d has_fftw gb im1 im2 b nt np ah
  else Raise Unmodelled.

(** cross_correlation_shifts.py:9-173 [cross_correlation_shifts](image1, image2, errim1=.., .., **K): what is not a parameter of
    its own goes to correlate2d (line 74) *)
Definition cross_correlation_shifts_kw (e : env) (astropy_options : list string) (agpy : option fitter) (image1 image2 : arr num)
    (errim1 errim2 : option (arr num)) (maxoff : option Z) (gaussfit return_error zeromean : bool) (K : kwargs) : res (list xnum) :=
  let! _ := bind_kw ["image1"; "image2"]%string [] true K in
  if negb (if list_eq_dec Z.eq_dec (shape image1) (shape image2) then true else false) then Raise ValueError else
  let sh := shape image1 in
  let a1 := zero_mean zeromean image1 in
  let a2 := zero_mean zeromean image2 in
  (* the first call of correlate2d: raises what it raises *)
  let! _ := correlate2d_kw (e_fftw e) (e_gb e) astropy_options (fin_arr sh (fun i => nan0 (get a1 i))) (fin_arr sh (fun i => nan0 (get a2 i))) K in
  let! b := opt_boundary K "boundary" BWrap in
  let! nt := opt_int K "nthreads" 1 in
  let! np := opt_bool K "use_numpy_fft" false in
  let! ah := opt_bool K "allow_huge" false in
  cross_correlation_shifts e agpy image1 image2 errim1 errim2 maxoff gaussfit return_error zeromean b nt np ah.
