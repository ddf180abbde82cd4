(** convolvend on real images with every operation rounded (continues M_rounding): the kernel's sum and normalisation, the
    transforms, their product, the smoothed weights and the division by them.  The body repeats M_convolve line by line;
    C124_exact (P_rounding8) says that with exact operations this is the model of convolvend of M_convolve.
    Simplification: image and kernel are real (the complex arrays of the code have zero imaginary parts, so numpy's complex
    division multiplies both parts by the rounded reciprocal); a normalisation function returns a real number. *)
From Coq Require Import ZArith Lia List Reals Lra Bool.
From Coquelicot Require Import Complex.
From Verif Require Import Base NDim DFT Kernel Num Py M_fast_ffts M_shift M_scale M_zoom M_upsample M_convolve M_correlate Arg M_chi2 M_xcorr M_register
  M_rounding M_rounding2 M_rounding3 M_rounding7.
Import ListNotations.
Open Scope R_scope.

(** one pixel of convolve_nd.py:315-320 *)
Definition reweight_fp (S : sarith) (min_wt : R) (z : C) (w : R) : num :=
  if Rlt_dec w min_wt then NaN
  else if Req_EM_T w 0 then (if Req_EM_T min_wt 0 then Fin 0 else NaN)
  else Fin (Re (cdiv_fp S z w)).

(** convolve_nd.py:196-209: the kernel after normalisation (None: division by zero) and whether it counts as normalised *)
Definition normalise_fp (S : sarith) (kernel : arr num) (nk : normk) : res (option (list Z -> R) * bool) :=
  let rd := sa_rd S in
  let k0 := fun i => nan0 (get kernel i) in
  let ksum0 := sa_sum S (values (shape kernel) k0) in
  let divide := fun d => if Req_EM_T d 0 then None else Some (fun i => rd (k0 i * rd (1 / d))) in
  match nk with
  | NkTrue => Ok (divide ksum0, true)
  | NkFun f => let d := f (Arr (shape kernel) (fun i => RtoC (k0 i))) in
               if Req_EM_T (Im d) 0 then Ok (divide (Re d), true) else Raise Unmodelled
  | NkFalse => Ok (Some k0, if Rlt_dec (Rabs (rd (ksum0 - 1))) (rd (/ 10 ^ 8)) then true else false)
  end.

(** convolve_nd.py:38-328 [convolvend] *)
Definition convolvend_fp (A : arith) (S : sarith) (np_complex_ok list_index_ok : bool) (array kernel : arr num)
    (b : boundary) (fill_value : num) (crop return_fft fftshift fft_pad psf_pad interpolate_nan ignore_edge_zeros : bool)
    (min_wt : R) (normalize_kernel : normk) : res convres :=
  if negb np_complex_ok then Raise AttributeError else
  if negb (Nat.eqb (ndim array) (ndim kernel)) then Raise PlainException else
  let nanmask := fun i => isnan (get array i) in
  let! kn := normalise_fp S kernel normalize_kernel in
  let '(kern, normalized) := kn in
  let! pads := match b with
    | BNone | BFill => Ok (fft_pad, true, fill_value)
    | BWrap => Ok (false, false, Fin 0)
    | BExtend => Raise NotImplementedError
    | BOther => Ok (fft_pad, psf_pad, fill_value)
    end in
  let '(fpad, ppad, fill) := pads in
  let ash := shape array in
  let ksh := shape kernel in
  if fpad && Nat.eqb (length ash) 0 then Raise ValueError else
  let N := newshape fpad ppad ash ksh in
  if negb list_index_ok then Raise IndexError else
  let! _ := check_fft N in
  match kern with
  | None => Raise ValueError
  | Some kern =>
    if isnan fill && existsN N (fun i => negb (inbb ash (subl i (starts N ash)))) then Raise ValueError else
    let bigarray := Arr N (embed N ash (fun i => RtoC (nan0 (get array i))) (RtoC (nan0 fill))) in
    let bigkernel := Arr N (embed N ksh (fun i => RtoC (kern i)) (RtoC 0)) in
    let arrayfft := ar_fft A bigarray in
    let kernfft := ar_fft A (Arr N (ifftshiftN N (get bigkernel))) in
    let fftmult := Arr N (fun k => ar_mul A (get arrayfft k) (get kernfft k)) in
    let reweighting := interpolate_nan || ignore_edge_zeros in
    let ks := sa_sum S (values ksh kern) in
    let wt0 := embed N ash (fun i => if nanmask i && interpolate_nan then RtoC 0 else RtoC 1)
                     (if ignore_edge_zeros then RtoC 0 else RtoC 1) in
    let wtfft := ar_fft A (Arr N wt0) in
    let wtsm := ar_ifft A (Arr N (fun k => cdiv_fp S (ar_mul A (get wtfft k) (get kernfft k)) ks)) in
    let bigimwt := fun i => Rmax 0 (if inbb ash (subl i (starts N ash)) then Re (get wtsm i) else Re (wt0 i)) in
    if return_fft then
      Ok (ConvFFT (if fftshift
                   then if crop then crop_to N ash (fftshiftN N (get fftmult)) else Arr N (fftshiftN N (get fftmult))
                   else fftmult))
    else
      let conv := ar_ifft A fftmult in
      let rifft := if reweighting && normalized
                   then fun i => if (if Req_EM_T ks 0 then true else false) && inbb ash (subl i (starts N ash)) then NaN
                                 else reweight_fp S min_wt (get conv i) (bigimwt i)
                   else fun i => Fin (Re (get conv i)) in
      Ok (ConvReal (if crop then crop_to N ash rifft else Arr N rifft))
  end.
