(** Model of image_registration/chi2_shifts.py: chi2n_map, chi2map_to_errors, chi2_shift *)
From Coq Require Import ZArith Lia List Reals Lra Bool.
From Coquelicot Require Import Complex.
From Verif Require Import Base NDim DFT Kernel Py M_fast_ffts M_shift M_scale M_zoom M_downsample M_convolve M_correlate Arg.
Import ListNotations.
Open Scope R_scope.

(** What the code finds installed.  [e_ppf x m]: scipy.stats.chi2.ppf(1 - scipy.stats.norm.sf(x)*2, m), external code,
    unspecified (NaN allowed); [e_gb]: astropy's size limit (see M_correlate). *)
Record env := Env { e_fftw : bool; e_gb : Z; e_scipy : bool; e_ppf : R -> R -> num }.

(** the [err] argument: None, a Python/numpy scalar, or an array *)
Inductive errarg := ErrNone | ErrScalar (e : R) | ErrArr (e : arr num).

(** im[im==im].mean(): NaN if there is no valid pixel *)
Definition valid_mean (a : arr num) : num :=
  let c := sumNR (shape a) (fun i => if isnan (get a i) then 0 else 1) in
  if Req_EM_T c 0 then NaN else Fin (sumNR (shape a) (fun i => nan0 (get a i)) / c).
Definition num_sub (x y : num) : num := match x, y with Fin a, Fin b => Fin (a - b) | _, _ => NaN end.
(** chi2_shifts.py:475-477 (zeromean) *)
Definition zero_mean (zeromean : bool) (a : arr num) : arr num :=
  if zeromean then (let m := valid_mean a in amap (fun x => num_sub x m) a) else a.

Inductive term3t := T3scalar (r : R) | T3array (a : arr R).
Inductive chi2res := Chi2Only (chi2 : arr R) | Chi2All (chi2 : arr R) (term1 : R) (term2 : arr R) (term3 : term3t).

Definition fin_arr (sh : list Z) (f : list Z -> R) : arr num := Arr sh (fun i => Fin (f i)).

(** chi2_shifts.py:434-520 [chi2n_map].  np.nan_to_num copies, so lines 487-489 do not reach the caller's arrays.
    Errors of a shape other than the image's fail in the boolean indexing of line 487 (IndexError).
    Simplifications: a scalar error of 0 (numpy then fills the map with inf/nan) and reduced=True with exactly two pixels
    (division by zero) are outside the model. *)
Definition chi2n_map (e : env) (im1 im2 : arr num) (err : errarg) (b : boundary) (nthreads : Z)
    (zeromean use_numpy_fft return_all reduced allow_huge : bool) : res chi2res :=
  if negb (if list_eq_dec Z.eq_dec (shape im1) (shape im2) then true else false) then Raise ValueError else
  let sh := shape im1 in
  let a1 := zero_mean zeromean im1 in
  let a2 := zero_mean zeromean im2 in
  let f1 := fun i => nan0 (get a1 i) in
  let f2 := fun i => nan0 (get a2 i) in
  let corr := fun x y => correlate2d (e_fftw e) (e_gb e) (fin_arr sh x) (fin_arr sh y) b nthreads use_numpy_fft allow_huge in
  let finish := fun (g1 : list Z -> R) (g2 er : list Z -> R) (t3 : term3t) =>
    let term1 := sumNR sh (fun i => (g2 i) ^ 2 / (er i) ^ 2) in
    let! cc := corr g1 (fun i => g2 i / (er i) ^ 2) in
    let term2 := amap (fun x => (-2) * x) cc in
    let chi2 := Arr sh (fun i => term1 + get term2 i + match t3 with T3scalar r => r | T3array a => get a i end) in
    let! chi2 := if reduced
                 then (if (prodZ sh =? 2)%Z then Raise Unmodelled else Ok (amap (fun x => x / (IZR (prodZ sh) - 2)) chi2))
                 else Ok chi2 in
    Ok (if return_all then Chi2All chi2 term1 term2 t3 else Chi2Only chi2) in
  match err with
  | ErrArr er =>
    if negb (if list_eq_dec Z.eq_dec (shape er) sh then true else false) then Raise IndexError else
    let bad := fun i => if Req_EM_T (nan0 (get er i)) 0 then true else false in
    let g2 := fun i => if bad i then 0 else f2 i in
    let g1 := fun i => if bad i then 0 else f1 i in
    let er' := fun i => if bad i then 1 else nan0 (get er i) in
    let! term3 := corr (fun i => (g1 i) ^ 2) (fun i => 1 / (er' i) ^ 2) in
    finish g1 g2 er' (T3array term3)
  | ErrScalar s =>
    if Req_EM_T s 0 then Raise Unmodelled else
    finish f1 f2 (fun _ => s) (T3scalar (sumNR sh (fun i => (f1 i) ^ 2 / s ^ 2)))
  | ErrNone => finish f1 f2 (fun _ => 1) (T3scalar (sumNR sh (fun i => (f1 i) ^ 2 / 1 ^ 2)))
  end.

(** x < t for a float threshold t that may be NaN *)
Definition ltn (x : R) (t : num) : bool := match t with Fin r => if Rlt_dec x r then true else false | NaN => false end.

(** chi2map - chi2map.min() < threshold: the selected pixels, in C order *)
Definition area (ny nx : Z) (m : Z -> Z -> R) (thr : num) : list (Z * Z) :=
  filter (fun p => ltn (m (fst p) (snd p) - min2 ny nx m) thr) (pixels ny nx).

(** chi2_shifts.py:282-291 [sigma_to_chi2]; without scipy a negative nsigma gives a complex power, and comparing with
    it raises TypeError (line 299) *)
Definition powlaw (x : R) : R :=
  if Req_EM_T x 0 then 0 else 159358435 / 100000000 * Rpower x (180468278 / 100000000).
Definition sigma_to_chi2 (e : env) (nsigma nfitted : R) : res num :=
  if e_scipy e then Ok (if Rlt_dec nsigma 8 then e_ppf e nsigma nfitted else Fin (powlaw nsigma))
  else if Rlt_dec nsigma 0 then Raise TypeError else Ok (Fin (powlaw nsigma)).

(** chi2_shifts.py:254-307 [chi2map_to_errors]; zoomfactor 0 (inf/nan coordinates) is outside the model *)
Definition chi2map_to_errors (e : env) (chi2map : arr R) (zoomfactor nsigma nfitted : R) : res (R * R * R * R) :=
  match shape chi2map with
  | [ny; nx] =>
    if Req_EM_T zoomfactor 0 then Raise Unmodelled else
    if (ny <=? 0)%Z || (nx <=? 0)%Z then Raise ValueError else                   (* argmin of an empty sequence *)
    let xx := fun p : Z * Z => (IZR (snd p) - IZR nx / 2) / zoomfactor in
    let yy := fun p : Z * Z => (IZR (fst p) - IZR ny / 2) / zoomfactor in
    let p := argmin2 ny nx (g2 chi2map) in
    let! thr := sigma_to_chi2 e nsigma nfitted in
    let sel := area ny nx (g2 chi2map) thr in
    let! xlo := lmin (map xx sel) in
    let! xhi := lmax (map xx sel) in
    let! ylo := lmin (map yy sel) in
    let! yhi := lmax (map yy sel) in
    Ok (xx p - xlo, xhi - xx p, yy p - ylo, yhi - yy p)
  | _ => Raise ValueError
  end.

(** the [upsample_factor] argument: 'auto', a Python int or a Python float *)
Inductive usarg := UAuto | UInt (u : Z) | UFloat (u : R).

(** elements of the returned list *)
Inductive retval := RNum (r : R) | RMaps (xvals yvals chi2 : arr R).

(** chi2_shifts.py:147-148: xlen/2 - (1 if xlen % 2 == 0 else 0.5) *)
Definition cen (n : Z) : R := IZR n / 2 - (if (n mod 2 =? 0)%Z then 1 else 1 / 2).

(** chi2_shifts.py:162-175 [m_auto] *)
Definition m_auto (e : env) (max_nsig nfitted : R) : num :=
  if e_scipy e then e_ppf e max_nsig nfitted else Fin (26088233328527037 / 10000000000000000).

(** chi2_shifts.py:178-201: automatic choice of the factor; returns (upsample_factor, size).
    [yvals.max()-yvals.min()] etc. are taken over the non-empty selection. *)
Definition spanZ (l : list Z) : Z := match l with [] => 0%Z | x :: t => (fold_left Z.max t x - fold_left Z.min t x)%Z end.
Definition auto_size (e : env) (ny nx : Z) (chi2 : Z -> Z -> R) (max_nsig nfitted : R) : Z :=
  let sel := area ny nx chi2 (m_auto e max_nsig nfitted) in
  if (1 <? Z.of_nat (length sel))%Z then Z.max (spanZ (map snd sel)) (spanZ (map fst sel)) else 1%Z.
Definition auto_factor (max_auto_size size : Z) : res R :=
  let! u := pydiv (IZR max_auto_size / 2) (IZR size) in
  Ok (if Rlt_dec u 1 then 1 else u).

(** chi2_shifts.py:202-210: explicit factor; returns (factor, [s1; s2]).  A float factor makes s1, s2 floats, which
    np.zeros (zoom.py:87) rejects with TypeError. *)
Definition explicit_window (u : usarg) (ny nx : Z) : res (R * list Z) :=
  match u with
  | UInt k => let! zf := pydiv (IZR ny) (IZR k) in
              Ok (IZR k, if Rle_dec zf 1 then [2 * k; 2 * k]%Z else [ny; nx])
  | UFloat r => let! zf := pydiv (IZR ny) r in
                if Rle_dec zf 1 then Raise TypeError else Ok (r, [ny; nx])
  | UAuto => Raise Unmodelled
  end.

(** verbose=True prints (a[a>0]).min() (lines 182, 222): ValueError when no pixel exceeds the minimum *)
Definition verbose_check (verbose : bool) (ny nx : Z) (m : Z -> Z -> R) : res unit :=
  if verbose && negb (existsb (fun p => if Rlt_dec 0 (m (fst p) (snd p) - min2 ny nx m) then true else false) (pixels ny nx))
  then Raise ValueError else Ok tt.

(** chi2_shifts.py:147-252: what [chi2_shift] does with the chi-squared map; [sh] is the shape of im1 *)
Definition chi2_shift_tail (e : env) (sh : list Z) (r : chi2res) (upsample_factor : usarg) (nfitted : R)
    (verbose return_error return_chi2array : bool) (max_auto_size : Z) (max_nsig : R) : res (list retval) :=
  match r, sh with
  | Chi2All chi2 _ _ _, [ylen; xlen] =>
    let '(ymax, xmax) := argmin2 ylen xlen (g2 chi2) in
    let yshift := IZR ymax - cen ylen in
    let xshift := IZR xmax - cen xlen in
    let! win := match upsample_factor with
      | UAuto => let! _ := verbose_check verbose ylen xlen (g2 chi2) in
                 let! u := auto_factor max_auto_size (auto_size e ylen xlen (g2 chi2) max_nsig nfitted) in
                 Ok (u, [max_auto_size; max_auto_size])
      | u => explicit_window u ylen xlen
      end in
    let '(usfac, outshape) := win in
    let! z := zoomnd (e_fftw e) (RtoCa chi2) [yshift; xshift] (fun x => x) usfac (Some outshape) 1 false true true in
    match z, outshape with
    | (Some xouts, RealArr chi2_ups), [s1; s2] =>
      if (s1 <=? 0)%Z || (s2 <=? 0)%Z then Raise ValueError else                 (* min of an empty array *)
      let! _ := verbose_check verbose s1 s2 (g2 chi2_ups) in
      let! errs := chi2map_to_errors e chi2_ups usfac 1 2 in
      let '(exl, exh, eyl, eyh) := errs in
      let '(i, j) := argmin2 s1 s2 (g2 chi2_ups) in
      let yshift_corr := get xouts [0%Z; i; j] - cen ylen in
      let xshift_corr := get xouts [1%Z; i; j] - cen xlen in
      Ok ([RNum (- xshift_corr); RNum (- yshift_corr)] ++
          (if return_error then [RNum ((exl + exh) / 2); RNum ((eyl + eyh) / 2)] else []) ++
          (if return_chi2array
           then [RMaps (mk2 s1 s2 (fun i j => get xouts [1%Z; i; j] - cen xlen))
                       (mk2 s1 s2 (fun i j => get xouts [0%Z; i; j] - cen ylen)) chi2_ups]
           else []))
    | _, _ => Raise Unmodelled
    end
  | _, _ => Raise ValueError                                                      (* unpacking a non-2-D shape *)
  end.

(** chi2_shifts.py:13-252 [chi2_shift] *)
Definition chi2_shift (e : env) (im1 im2 : arr num) (err : errarg) (upsample_factor : usarg) (b : boundary) (nthreads : Z)
    (use_numpy_fft zeromean : bool) (nfitted : R) (verbose return_error return_chi2array : bool)
    (max_auto_size : Z) (max_nsig : R) (allow_huge : bool) : res (list retval) :=
  let! r := chi2n_map e im1 im2 err b nthreads zeromean use_numpy_fft true false allow_huge in
  chi2_shift_tail e (shape im1) r upsample_factor nfitted verbose return_error return_chi2array max_auto_size max_nsig.
