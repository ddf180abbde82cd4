(** The FFT-based functions with the Fourier transforms and the product of the transforms as parameters, so that a floating
    point FFT can be put in place of the exact one.  The bodies repeat M_shift, M_correlate, M_chi2 and M_register line by
    line; the [.._exact] lemmas say that with the exact transforms they are those models.
    Simplification: everything else (sums, scalar multiplications, the means subtracted, moduli, comparisons) is exact. *)
From Coq Require Import ZArith Lia List Reals Lra Bool.
From Coquelicot Require Import Complex.
From Verif Require Import Base NDim DFT Kernel Num Py M_fast_ffts M_shift M_convolve M_correlate Arg M_chi2 M_xcorr M_register.
Import ListNotations.
Open Scope R_scope.

(** the three operations: numpy.fft.fftn (or fftw), numpy.fft.ifftn, complex multiplication *)
Record arith := Arith { ar_fft : arr C -> arr C; ar_ifft : arr C -> arr C; ar_mul : C -> C -> C }.
(** fast_ffts.py:35-53 with exact arithmetic *)
Definition exact_arith (has_fftw : bool) (nthreads : Z) (use_numpy_fft : bool) : arith :=
  Arith (fst (get_ffts has_fftw nthreads use_numpy_fft)) (snd (get_ffts has_fftw nthreads use_numpy_fft)) Cmult.

(** shift.py:56-118 [shiftnd] *)
Definition shiftnd_with (A : arith) (data : arr cnum) (offset : list R) (phase : R) (return_abs return_real : bool) : res anyarr :=
  let data' := clean_nan data in
  let sh := shape data in
  let! _ := check_freqs (map snd (combine offset sh)) in
  let kernel := Arr sh (fun k => cis (- (2 * PI * freq_grid offset sh k) - phase)) in
  let! _ := check_fft sh in
  let spec := ar_fft A data' in
  let result := ar_ifft A (Arr sh (fun k => ar_mul A (get spec k) (get kernel k))) in
  Ok (pick return_abs return_real result).
Lemma shiftnd_exact hf data offset phase nt np ra rr :
  shiftnd_with (exact_arith hf nt np) data offset phase ra rr = shiftnd hf data offset phase nt np ra rr.
Proof. unfold shiftnd, shiftnd_with, exact_arith. destruct (get_ffts hf nt np). reflexivity. Qed.

(** astropy's convolve_fft (see M_correlate) and correlate2d.py:9-44 [correlate2d] *)
Definition convolve_fft_with (A : arith) (gb : Z) (array kernel : arr num) (b : boundary) (allow_huge : bool) : res (arr R) :=
  if negb (Nat.eqb (ndim array) (ndim kernel)) then Raise ValueError else
  let! pads := match b with
    | BNone | BFill => Ok (true, true)
    | BWrap => Ok (false, false)
    | BExtend => Raise NotImplementedError
    | BOther => Raise Unmodelled
    end in
  let '(fpad, ppad) := pads in
  let ash := shape array in
  let ksh := shape kernel in
  let N := newshape fpad ppad ash ksh in
  if negb allow_huge && (gb <? 16 * prodZ N)%Z then Raise ValueError else
  let! _ := check_fft N in
  let bigarray := Arr N (embed N ash (fun i => RtoC (nan0 (get array i))) (RtoC 0)) in
  let bigkernel := embed N ksh (fun i => RtoC (nan0 (get kernel i))) (RtoC 0) in
  let arrayfft := ar_fft A bigarray in
  let kernfft := ar_fft A (Arr N (ifftshiftN N bigkernel)) in
  let fftmult := Arr N (fun k => ar_mul A (get arrayfft k) (get kernfft k)) in
  let conv := ar_ifft A fftmult in
  Ok (crop_to N ash (fun i => Re (get conv i))).
Definition correlate2d_with (A : arith) (gb : Z) (im1 im2 : arr num) (b : boundary) (allow_huge : bool) : res (arr R) :=
  let! r := rev2 im2 in convolve_fft_with A gb im1 r b allow_huge.
Lemma correlate2d_exact hf gb im1 im2 b nt np huge :
  correlate2d_with (exact_arith hf nt np) gb im1 im2 b huge = correlate2d hf gb im1 im2 b nt np huge.
Proof. unfold correlate2d, correlate2d_with, convolve_fft, convolve_fft_with, exact_arith. destruct (get_ffts hf nt np). reflexivity. Qed.

(** chi2_shifts.py:434-520 [chi2n_map] *)
Definition chi2n_map_with (A : arith) (gb : Z) (im1 im2 : arr num) (err : errarg) (b : boundary)
    (zeromean return_all reduced allow_huge : bool) : res chi2res :=
  if negb (if list_eq_dec Z.eq_dec (shape im1) (shape im2) then true else false) then Raise ValueError else
  let sh := shape im1 in
  let a1 := zero_mean zeromean im1 in
  let a2 := zero_mean zeromean im2 in
  let f1 := fun i => nan0 (get a1 i) in
  let f2 := fun i => nan0 (get a2 i) in
  let corr := fun x y => correlate2d_with A gb (fin_arr sh x) (fin_arr sh y) b allow_huge in
  let finish := fun (g1 : list Z -> R) (g2 er : list Z -> R) (t3 : term3t) =>
    let term1 := sumNR sh (fun i => (g2 i) ^ 2 / (er i) ^ 2) in
    let! cc := corr g1 (fun i => g2 i / (er i) ^ 2) in
    let term2 := amap (fun x => (-2) * x) cc in
    let chi2 := Arr sh (fun i => term1 + get term2 i + match t3 with T3scalar r => r | T3array a => get a i end) in
    let! chi2 := if reduced
                 then (if (prodZ sh =? 2)%Z then Raise Unmodelled else Ok (amap (fun x => x / (IZR (prodZ sh) - 2)) chi2))
                 else Ok chi2 in
    Ok (if return_all then Chi2All chi2 term1 term2 t3 else Chi2Only chi2) in
  match err with
  | ErrArr er =>
    if negb (if list_eq_dec Z.eq_dec (shape er) sh then true else false) then Raise IndexError else
    let bad := fun i => if Req_EM_T (nan0 (get er i)) 0 then true else false in
    let g2 := fun i => if bad i then 0 else f2 i in
    let g1 := fun i => if bad i then 0 else f1 i in
    let er' := fun i => if bad i then 1 else nan0 (get er i) in
    let! term3 := corr (fun i => (g1 i) ^ 2) (fun i => 1 / (er' i) ^ 2) in
    finish g1 g2 er' (T3array term3)
  | ErrScalar s =>
    if Req_EM_T s 0 then Raise Unmodelled else
    finish f1 f2 (fun _ => s) (T3scalar (sumNR sh (fun i => (f1 i) ^ 2 / s ^ 2)))
  | ErrNone => finish f1 f2 (fun _ => 1) (T3scalar (sumNR sh (fun i => (f1 i) ^ 2 / 1 ^ 2)))
  end.
Lemma chi2n_map_exact e im1 im2 err b nt zm np ra red huge :
  chi2n_map_with (exact_arith (e_fftw e) nt np) (e_gb e) im1 im2 err b zm ra red huge = chi2n_map e im1 im2 err b nt zm np ra red huge.
Proof.
  unfold chi2n_map, chi2n_map_with.
  destruct (negb _); [reflexivity|]. destruct err as [|s|er].
  - rewrite correlate2d_exact. reflexivity.
  - destruct (Req_EM_T s 0); [reflexivity|]. rewrite correlate2d_exact. reflexivity.
  - destruct (negb _); [reflexivity|]. rewrite correlate2d_exact. destruct (correlate2d _ _ _ _ _ _ _ _); [|reflexivity]. cbn [bind].
    rewrite correlate2d_exact. reflexivity.
Qed.

(** register_images.py:9-72 [register_images] with usfac = 1 and return_registered = False, so of [dftregistration] lines
    135-167 and 266-269.  [A]: the transforms register_images uses, [A']: those of dftregistration. *)
Definition register_images_with (A A' : arith) (im1 im2 : arr num) (return_error zeromean : bool) (maxoff : option Z) : res (list regval) :=
  if negb (if list_eq_dec Z.eq_dec (shape im1) (shape im2) then true else false) then Raise ValueError else
  let sh := shape im1 in
  let a1 := zero_mean zeromean im1 in
  let a2 := zero_mean zeromean im2 in
  let! _ := check_fft sh in
  let im1fft := ar_fft A (Arr sh (fun i => RtoC (nan0 (get a1 i)))) in
  let im2fft := ar_fft A (Arr sh (fun i => RtoC (nan0 (get a2 i)))) in
  match shape im1fft with
  | [m; n] =>
    let cc := limit_cc m n maxoff (g2 (ar_ifft A' (mk2 m n (fun i j => ar_mul A' (g2 im1fft i j) (Cconj (g2 im2fft i j)))))) in
    let '(rloc, cloc) := peak m n cc in
    Ok ([RgNum (- IZR (unwrap n cloc)); RgNum (- IZR (unwrap m rloc))] ++ (if return_error then [RgNum (1 / 1); RgNum (1 / 1)] else []))
  | _ => Raise ValueError
  end.
Lemma register_images_exact hf im1 im2 re zm mo nt np :
  register_images_with (exact_arith hf nt np) (exact_arith hf 1 false) im1 im2 re zm mo = register_images hf im1 im2 1 false re zm mo nt np.
Proof.
  unfold register_images, register_images_with, dftregistration, exact_arith. destruct (get_ffts hf nt np) as [f i]. destruct (get_ffts hf 1 false) as [f' i'].
  cbn [fst snd ar_fft ar_ifft ar_mul]. destruct (negb _); [reflexivity|]. destruct (check_fft _); [|reflexivity]. cbn [bind].
  destruct (Req_EM_T 1 0) as [N|_]; [lra|]. destruct (shape (f _)) as [|m [|n [|]]]; try reflexivity.
  destruct (Req_EM_T 1 1) as [_|N]; [|lra]. destruct (peak m n _) as [r c]. destruct re; reflexivity.
Qed.
