(** Memory-level model: which buffers the functions read, allocate and overwrite.  A buffer is a numpy array's data; two
    arguments may be the same buffer.  Overlapping views of one buffer are not modelled. *)
From Coq Require Import ZArith Lia List Reals Lra Bool.
From Coquelicot Require Import Complex.
From Verif Require Import Base NDim DFT Kernel Num Py M_fast_ffts M_shift M_convolve M_correlate Arg M_zoom M_chi2 M_register M_xcorr.
Import ListNotations.
Open Scope R_scope.

(** contents of a buffer: float64 pixels, complex128 pixels, or float64 pixels some of which are infinite *)
Inductive buf := BReal (a : arr num) | BCplx (a : arr cnum) | BExt (a : arr xnum).
(** memory: buffers numbered from 0; allocation appends *)
Definition mem := list buf.
Definition loc := nat.
(** a computation: result or exception, and the memory it leaves (also when it raises) *)
Definition M (A : Type) := mem -> res A * mem.
Definition ret {A} (x : A) : M A := fun m => (Ok x, m).
Definition raise {A} (e : exn) : M A := fun m => (Raise e, m).
Definition mbind {A B} (c : M A) (f : A -> M B) : M B :=
  fun m => match c m with (Ok x, m') => f x m' | (Raise e, m') => (Raise e, m') end.
Notation "'do!' x ':=' c 'in' k" := (mbind c (fun x => k)) (at level 200, x pattern, right associativity).
Definition lift {A} (r : res A) : M A := fun m => (r, m).

Definition set_nth (l : loc) (b : buf) (m : mem) : mem := firstn l m ++ match skipn l m with [] => [] | _ :: t => b :: t end.
(** a new array *)
Definition alloc (b : buf) : M loc := fun m => (Ok (length m), m ++ [b]).
Definition load (l : loc) : M buf := fun m => (match nth_error m l with Some b => Ok b | None => Raise Unmodelled end, m).
(** overwrite the data of an array in place *)
Definition store (l : loc) (b : buf) : M unit := fun m => (Ok tt, set_nth l b m).
Definition loadR (l : loc) : M (arr num) := do! b := load l in match b with BReal a => ret a | _ => raise Unmodelled end.
Definition loadC (l : loc) : M (arr cnum) := do! b := load l in match b with BCplx a => ret a | _ => raise Unmodelled end.

(** a[mask] = v, in place *)
Definition put {A} (a : arr A) (mask : list Z -> bool) (v : A) : arr A := Arr (shape a) (fun i => if mask i then v else get a i).
(** x - x[x==x].mean(): a new array *)
Definition subtract_mean (l : loc) : M loc := do! a := loadR l in alloc (BReal (zero_mean true a)).
(** np.nan_to_num(x): a new array *)
Definition nan_to_num (l : loc) : M loc := do! a := loadR l in alloc (BReal (amap (fun x => Fin (nan0 x)) a)).
(** x.copy() *)
Definition copy (l : loc) : M loc := do! a := loadR l in alloc (BReal a).
(** l[mask] = v for a float array *)
Definition put_at (l : loc) (mask : list Z -> bool) (v : num) : M unit := do! a := loadR l in store l (BReal (put a mask v)).

Definition shapes_differ (a b : arr num) : bool := negb (if list_eq_dec Z.eq_dec (shape a) (shape b) then true else false).

(** register_images.py:52-58: if any pixel is NaN, copy and overwrite the copy *)
Definition replace_nan (l : loc) : M loc :=
  do! a := loadR l in
  if any isnan a then
    do! l' := copy l in
    do! a' := loadR l' in
    do! _ := put_at l' (fun i => isnan (get a' i)) (Fin 0) in
    ret l'
  else ret l.

(** register_images.py:44-74 [register_images] on float images; the FFTs and everything after them work on new arrays
    ([fftwn] copies its argument, fast_ffts.py:8-22) *)
Definition register_images_mem (has_fftw : bool) (im1 im2 : loc) (usfac : R) (return_registered return_error zeromean : bool)
    (maxoff : option Z) (nthreads : Z) (use_numpy_fft : bool) : M (list regval) :=
  do! a1 := loadR im1 in
  do! a2 := loadR im2 in
  if shapes_differ a1 a2 then raise ValueError else
  do! im1 := (if zeromean then subtract_mean im1 else ret im1) in
  do! im2 := (if zeromean then subtract_mean im2 else ret im2) in
  do! im1 := replace_nan im1 in
  do! im2 := replace_nan im2 in
  do! a1 := loadR im1 in
  do! a2 := loadR im2 in
  lift (
    let '(fft2, ifft2) := get_ffts has_fftw nthreads use_numpy_fft in
    let! _ := check_fft (shape a1) in
    let im1fft := fft2 (Arr (shape a1) (fun i => RtoC (nan0 (get a1 i)))) in
    let im2fft := fft2 (Arr (shape a1) (fun i => RtoC (nan0 (get a2 i)))) in
    let! output := dftregistration has_fftw im1fft im2fft usfac return_registered return_error maxoff 1 false in
    match output with
    | RgNum r :: RgNum c :: rest =>
      let rest' := map (fun v => match v with
                                 | RgFt g => if return_registered
                                             then RgImg (match shape g with
                                                         | [m; n] => mk2 m n (ifftshift2 m n (fun i j => Cmod (g2 (ifft2 g) i j)))
                                                         | _ => Arr (shape g) (fun _ => 0)
                                                         end)
                                             else v
                                 | _ => v
                                 end) rest in
      Ok (RgNum (- c) :: RgNum (- r) :: rest')
    | _ => Raise IndexError
    end).

(** the [err] argument of chi2n_map: None, a scalar, or an array *)
Inductive errloc := ELNone | ELScalar (s : R) | ELArr (l : loc).

(** chi2_shifts.py:472-520 [chi2n_map] on float images.  Lines 489-491 write into the copies made by np.nan_to_num. *)
Definition chi2n_map_mem (e : env) (im1 im2 : loc) (err : errloc) (b : boundary) (nthreads : Z)
    (zeromean use_numpy_fft return_all reduced allow_huge : bool) : M chi2res :=
  do! a1 := loadR im1 in
  do! a2 := loadR im2 in
  if shapes_differ a1 a2 then raise ValueError else
  do! im1 := (if zeromean then subtract_mean im1 else ret im1) in
  do! im2 := (if zeromean then subtract_mean im2 else ret im2) in
  do! im1 := nan_to_num im1 in
  do! im2 := nan_to_num im2 in
  let sh := shape a1 in
  let corr := fun x y => correlate2d (e_fftw e) (e_gb e) (fin_arr sh x) (fin_arr sh y) b nthreads use_numpy_fft allow_huge in
  let finish := fun (er : list Z -> R) (t3 : term3t) =>
    do! a1 := loadR im1 in
    do! a2 := loadR im2 in
    let g1 := fun i => nan0 (get a1 i) in
    let g2 := fun i => nan0 (get a2 i) in
    lift (
      let term1 := sumNR sh (fun i => (g2 i) ^ 2 / (er i) ^ 2) in
      let! cc := corr g1 (fun i => g2 i / (er i) ^ 2) in
      let term2 := amap (fun x => (-2) * x) cc in
      let chi2 := Arr sh (fun i => term1 + get term2 i + match t3 with T3scalar r => r | T3array a => get a i end) in
      let! chi2 := if reduced
                   then (if (prodZ sh =? 2)%Z then Raise Unmodelled else Ok (amap (fun x => x / (IZR (prodZ sh) - 2)) chi2))
                   else Ok chi2 in
      Ok (if return_all then Chi2All chi2 term1 term2 t3 else Chi2Only chi2)) in
  match err with
  | ELArr le =>
    do! le := nan_to_num le in
    do! er := loadR le in
    if negb (if list_eq_dec Z.eq_dec (shape er) sh then true else false) then raise IndexError else
    let zero := fun i => if Req_EM_T (nan0 (get er i)) 0 then true else false in
    do! _ := put_at im2 zero (Fin 0) in
    do! _ := put_at im1 zero (Fin 0) in
    do! _ := put_at le zero (Fin 1) in
    do! er := loadR le in
    do! a1 := loadR im1 in
    do! term3 := lift (corr (fun i => (nan0 (get a1 i)) ^ 2) (fun i => 1 / (nan0 (get er i)) ^ 2)) in
    finish (fun i => nan0 (get er i)) (T3array term3)
  | ELScalar s =>
    if Req_EM_T s 0 then raise Unmodelled else
    do! a1 := loadR im1 in
    finish (fun _ => s) (T3scalar (sumNR sh (fun i => (nan0 (get a1 i)) ^ 2 / s ^ 2)))
  | ELNone =>
    do! a1 := loadR im1 in
    finish (fun _ => 1) (T3scalar (sumNR sh (fun i => (nan0 (get a1 i)) ^ 2 / 1 ^ 2)))
  end.

(** chi2_shifts.py:147-252: what chi2_shift computes from the map returned by chi2n_map; only new arrays are written *)
Definition chi2_shift_rest (e : env) (sh1 : list Z) (upsample_factor : usarg) (nfitted : R) (verbose return_error return_chi2array : bool)
    (max_auto_size : Z) (max_nsig : R) (r : chi2res) : res (list retval) :=
  match r, sh1 with
  | Chi2All chi2 _ _ _, [ylen; xlen] =>
    let '(ymax, xmax) := argmin2 ylen xlen (g2 chi2) in
    let yshift := IZR ymax - cen ylen in
    let xshift := IZR xmax - cen xlen in
    let! win := match upsample_factor with
      | UAuto => let! _ := verbose_check verbose ylen xlen (g2 chi2) in
                 let! u := auto_factor max_auto_size (auto_size e ylen xlen (g2 chi2) max_nsig nfitted) in
                 Ok (u, [max_auto_size; max_auto_size])
      | u => explicit_window u ylen xlen
      end in
    let '(usfac, outshape) := win in
    let! z := zoomnd (e_fftw e) (RtoCa chi2) [yshift; xshift] (fun x => x) usfac (Some outshape) 1 false true true in
    match z, outshape with
    | (Some xouts, RealArr chi2_ups), [s1; s2] =>
      if (s1 <=? 0)%Z || (s2 <=? 0)%Z then Raise ValueError else                 (* min of an empty array *)
      let! _ := verbose_check verbose s1 s2 (g2 chi2_ups) in
      let! errs := chi2map_to_errors e chi2_ups usfac 1 2 in
      let '(exl, exh, eyl, eyh) := errs in
      let '(i, j) := argmin2 s1 s2 (g2 chi2_ups) in
      let yshift_corr := get xouts [0%Z; i; j] - cen ylen in
      let xshift_corr := get xouts [1%Z; i; j] - cen xlen in
      Ok ([RNum (- xshift_corr); RNum (- yshift_corr)] ++
          (if return_error then [RNum ((exl + exh) / 2); RNum ((eyl + eyh) / 2)] else []) ++
          (if return_chi2array
           then [RMaps (mk2 s1 s2 (fun i j => get xouts [1%Z; i; j] - cen xlen))
                       (mk2 s1 s2 (fun i j => get xouts [0%Z; i; j] - cen ylen)) chi2_ups]
           else []))
    | _, _ => Raise Unmodelled
    end
  | _, _ => Raise ValueError                                                      (* unpacking a non-2-D shape *)
  end.
(** chi2_shifts.py:13-252 [chi2_shift] on float images: the caller's images and error are only passed on to chi2n_map (lines 142-146);
    lines 150-151 make zero-filled copies, of which only the shape of the first is used *)
Definition chi2_shift_mem (e : env) (im1 im2 : loc) (err : errloc) (upsample_factor : usarg) (b : boundary) (nthreads : Z)
    (use_numpy_fft zeromean : bool) (nfitted : R) (verbose return_error return_chi2array : bool)
    (max_auto_size : Z) (max_nsig : R) (allow_huge : bool) : M (list retval) :=
  do! r := chi2n_map_mem e im1 im2 err b nthreads zeromean use_numpy_fft true false allow_huge in
  do! im1 := nan_to_num im1 in
  do! im2 := nan_to_num im2 in
  do! a1 := loadR im1 in
  lift (chi2_shift_rest e (shape a1) upsample_factor nfitted verbose return_error return_chi2array max_auto_size max_nsig r).

(** cross_correlation_shifts.py:71-183 [cross_correlation_shifts] on float images: lines 74-79 make new arrays; line 84 writes into
    the result of a division, a new array; the errors are only read *)
Definition cross_correlation_shifts_mem (e : env) (agpy : option fitter) (im1 im2 : loc) (er1 er2 : option loc) (maxoff : option Z)
    (gaussfit return_error zeromean : bool) (b : boundary) (nthreads : Z) (use_numpy_fft allow_huge : bool) : M (list xnum) :=
  do! a1 := loadR im1 in
  do! a2 := loadR im2 in
  if shapes_differ a1 a2 then raise ValueError else
  do! im1 := (if zeromean then subtract_mean im1 else ret im1) in
  do! im2 := (if zeromean then subtract_mean im2 else ret im2) in
  do! im1 := nan_to_num im1 in
  do! im2 := nan_to_num im2 in
  do! a1 := loadR im1 in
  do! a2 := loadR im2 in
  do! e1 := (match er1 with None => ret None | Some l => do! a := loadR l in ret (Some a) end) in
  do! e2 := (match er2 with None => ret None | Some l => do! a := loadR l in ret (Some a) end) in
  lift (cross_correlation_shifts e agpy a1 a2 e1 e2 maxoff gaussfit return_error false b nthreads use_numpy_fft allow_huge).

(** shift.py:72-113 [shiftnd] on a float image: np.nan_to_num makes a new array if there is a NaN *)
Definition shiftnd_mem (has_fftw : bool) (data : loc) (offset : list R) (phase : R) (nthreads : Z)
    (use_numpy_fft return_abs return_real : bool) : M anyarr :=
  do! a := loadR data in
  do! data := (if any isnan a then nan_to_num data else ret data) in
  do! a := loadR data in
  lift (shiftnd has_fftw (of_num a) offset phase nthreads use_numpy_fft return_abs return_real).

(** *** convolvend *)
(** an argument: an array in memory, or a list (converted into a new array) *)
(** np.asarray(x, dtype=complex): the array itself if it is complex already, else a new array *)
Definition asarray_complex (l : loc) : M loc :=
  do! b := load l in
  match b with
  | BCplx _ => ret l
  | BReal a => alloc (BCplx (of_num a))
  | BExt _ => raise Unmodelled
  end.
Definition put_atC (l : loc) (mask : list Z -> bool) (v : cnum) : M unit := do! a := loadC l in store l (BCplx (put a mask v)).

(** convolve_nd.py:144-328 [convolvend].  The numerical part is that of [convolvend] (M_convolve.v) on what the buffers hold
    after lines 188-191: the zeroed array and its mask, and the zeroed kernel.  Every exception after line 150 comes before the
    restoration of lines 303-304. *)
Definition convolvend_mem (has_fftw np_complex_ok list_index_ok : bool) (array kernel : loc)
    (b : boundary) (fill_value : num) (crop return_fft fftshift fft_pad psf_pad interpolate_nan ignore_edge_zeros : bool)
    (min_wt : R) (normalize_kernel : normk) (use_numpy_fft : bool) (nthreads : Z) : M convres :=
  if negb np_complex_ok then raise AttributeError else
  do! array := asarray_complex array in
  do! kernel := asarray_complex kernel in
  do! a := loadC array in
  do! k := loadC kernel in
  if negb (Nat.eqb (ndim a) (ndim k)) then raise PlainException else
  let nanmaskarray := fun i => cisnan (get a i) in
  do! _ := put_atC array nanmaskarray (Fin 0, Fin 0) in
  do! k := loadC kernel in
  let nanmaskkernel := fun i => cisnan (get k i) in
  do! _ := put_atC kernel nanmaskkernel (Fin 0, Fin 0) in
  do! a := loadC array in
  do! k := loadC kernel in
  (* lines 197-209: normalising makes a new array and rebinds the name; the normalised values are those of the numerical part *)
  do! kernel := (match normalize_kernel with NkFalse => ret kernel | _ => alloc (BCplx k) end) in
  do! r := lift (convolvend has_fftw np_complex_ok list_index_ok (put a nanmaskarray (NaN, NaN)) k b fill_value crop return_fft
                   fftshift fft_pad psf_pad interpolate_nan ignore_edge_zeros min_wt normalize_kernel use_numpy_fft nthreads) in
  do! _ := put_atC array nanmaskarray (NaN, Fin 0) in
  do! _ := put_atC kernel nanmaskkernel (NaN, Fin 0) in
  ret r.
