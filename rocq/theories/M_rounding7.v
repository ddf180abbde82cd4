(** register_images with every operation rounded, any upsampling factor (continues M_rounding3, where usfac = 1): the half-pixel
    search, the matrix-multiply Fourier transform around the peak, the positions and phases of its grid and the offsets are
    computed with one rounding per operation.  The bodies repeat M_register and M_upsample line by line; C123_exact (P_rounding7)
    says that with exact operations this is the model of register_images of M_register.
    Simplification: integers (sizes, pixel indices, frequencies) are exact when converted to floats and subtracted, as they are below
    2^53; return_registered=False. *)
From Coq Require Import ZArith Lia List Reals Lra Bool.
From Coquelicot Require Import Complex.
From Verif Require Import Base NDim DFT Kernel Num Py M_fast_ffts M_shift M_scale M_zoom M_upsample M_convolve M_correlate Arg M_chi2 M_xcorr M_register
  M_rounding M_rounding2 M_rounding3.
Import ListNotations.
Open Scope R_scope.

(** upsample.py:7-63 [dftups], output size given *)
Definition dftups_fp (B : zarith) (S : sarith) (inp : arr C) (nor noc usfac roff coff : R) : res (arr C) :=
  match shape inp with
  | [nr; nc] =>
    let rd := sa_rd S in
    let term1c := fun l => rd (np_ifftshift nc (fun j => IZR j - IZR (nc / 2)) l / IZR nc) in
    let term2c := fun c => rd (rd (IZR c - coff) / usfac) in
    let kernc := fun l c => za_cis B (rd (rd (- rd (2 * PI) * term1c l) * term2c c)) in
    let term1r := fun r => rd (IZR r - roff) in
    let term2r := fun k => np_ifftshift nr IZR k - IZR (nr / 2) in
    if Req_EM_T (IZR nr * usfac) 0 then Raise ZeroDivisionError else
    let kernr := fun r k => za_cis B (rd (rd (rd (- rd (2 * PI) / rd (IZR nr * usfac)) * term1r r) * term2r k)) in
    let dot1 := fun r l => za_dot B nr (fun k => kernr r k) (fun k => g2 inp k l) in
    Ok (mk2 (arange_len nor) (arange_len noc) (fun r c => za_dot B nc (fun l => dot1 r l) (fun l => kernc l c)))
  | _ => Raise ValueError
  end.
(** numpy division of a complex number by a real one: both parts times the reciprocal *)
Definition cdiv_fp (S : sarith) (z : C) (d : R) : C :=
  let scl := sa_rd S (1 / d) in (sa_rd S (Re z * scl), sa_rd S (Im z * scl)).

(** register_images.py:192-199 with the moduli rounded: [cc] is the correlation *)
Definition peak_fp (S : sarith) (m n : Z) (cc : Z -> Z -> C) : Z * Z := argmax2 m n (fun i j => sa_rd S (Cmod (cc i j))).

(** register_images.py:169-191 the correlation on the half-pixel grid *)
Definition coarse_cc_fp (A' : arith) (m n : Z) (buf1ft buf2ft : arr C) (maxoff : option Z) : Z -> Z -> C :=
  let large := embed2 m n (fun i j => ar_mul A' (fftshift2 m n (g2 buf1ft) i j) (Cconj (fftshift2 m n (g2 buf2ft) i j))) in
  limit_cc (m * 2) (n * 2) maxoff (g2 (ar_ifft A' (mk2 (m * 2) (n * 2) (ifftshift2 (m * 2) (n * 2) large)))).

(** register_images.py:227-253 with usfac > 2: refinement around (row_shift2, col_shift2); [md2], [nd2] half the sizes of the
    half-pixel grid *)
Definition refine_fp (A' : arith) (B : zarith) (S : sarith) (m n md2 nd2 : Z) (buf1ft buf2ft : arr C) (usfac row_shift2 col_shift2 : R) : res (R * R) :=
  let rd := sa_rd S in
  let row_shift0 := rd (IZR (roundR (rd (row_shift2 * usfac))) / usfac) in
  let col_shift0 := rd (IZR (roundR (rd (col_shift2 * usfac))) / usfac) in
  let size := IZR (ceilR (rd (usfac * (3 / 2)))) in
  let dftshift := IZR (truncR (rd (size / 2))) in
  let roff := rd (dftshift - rd (row_shift0 * usfac)) in
  let coff := rd (dftshift - rd (col_shift0 * usfac)) in
  let! ups := dftups_fp B S (mk2 m n (fun i j => ar_mul A' (g2 buf2ft i j) (Cconj (g2 buf1ft i j)))) size size usfac roff coff in
  match shape ups with
  | [h; w] =>
    let cc := fun i j => cdiv_fp S (Cconj (g2 ups i j)) (rd (IZR (md2 * nd2) * rd (usfac ^ 2))) in
    let '(rl, cl) := peak_fp S h w cc in
    Ok (rd (row_shift0 + rd ((IZR rl - dftshift) / usfac)), rd (col_shift0 + rd ((IZR cl - dftshift) / usfac)))
  | _ => Raise ValueError
  end.

(** register_images.py:9-72 [register_images] and 75-309 [dftregistration], return_registered=False, DEBUG=False *)
Definition register_images_fp (A A' : arith) (B : zarith) (S : sarith) (im1 im2 : arr num) (usfac : R) (return_error zeromean : bool)
    (maxoff : option Z) : res (list regval) :=
  let rd := sa_rd S in
  if negb (if list_eq_dec Z.eq_dec (shape im1) (shape im2) then true else false) then Raise ValueError else
  let sh := shape im1 in
  let a1 := zero_mean_rd S zeromean im1 in
  let a2 := zero_mean_rd S zeromean im2 in
  let! _ := check_fft sh in
  let im1fft := ar_fft A (Arr sh (fun i => RtoC (nan0 (get a1 i)))) in
  let im2fft := ar_fft A (Arr sh (fun i => RtoC (nan0 (get a2 i)))) in
  if Req_EM_T usfac 0 then Raise ValueError else
  match shape im1fft with
  | [m; n] =>
    let! found :=
      (if Req_EM_T usfac 1 then
         let cc := limit_cc m n maxoff (g2 (ar_ifft A' (mk2 m n (fun i j => ar_mul A' (g2 im1fft i j) (Cconj (g2 im2fft i j)))))) in
         let '(rloc, cloc) := peak_fp S m n cc in
         Ok (IZR (unwrap m rloc), IZR (unwrap n cloc))
       else
         let '(rloc, cloc) := peak_fp S (m * 2) (n * 2) (coarse_cc_fp A' m n im1fft im2fft maxoff) in
         let md2 := truncR (IZR (m * 2) / 2) in let nd2 := truncR (IZR (n * 2) / 2) in
         let row_shift2 := rd (IZR (unwrap (m * 2) rloc) / 2) in
         let col_shift2 := rd (IZR (unwrap (n * 2) cloc) / 2) in
         let! fine := (if Rlt_dec 2 usfac then refine_fp A' B S m n md2 nd2 im1fft im2fft usfac row_shift2 col_shift2
                       else Ok (row_shift2, col_shift2)) in
         let '(row_shift, col_shift) := fine in
         Ok ((if (md2 =? 1)%Z then 0 else row_shift), (if (nd2 =? 1)%Z then 0 else col_shift))) in
    let '(row_shift, col_shift) := found in
    Ok ([RgNum (- col_shift); RgNum (- row_shift)] ++ (if return_error then [RgNum (rd (1 / usfac)); RgNum (rd (1 / usfac))] else []))
  | _ => Raise ValueError
  end.
