(** Model of cross_correlation_shifts (image_registration/cross_correlation_shifts.py:9-173) for images of an integer dtype.  The squares of the images
    (lines 111-112, 158) are computed in the dtype and their sums (line 158) in 64 bits; everything else involves floats. *)
From Coq Require Import ZArith Lia List Reals Lra Bool.
From Coquelicot Require Import Complex.
From Verif Require Import Base NDim DFT Kernel Py M_fast_ffts M_shift M_convolve M_correlate Arg M_chi2 M_xcorr M_intdtype.
Import ListNotations.
Open Scope R_scope.

(** (image**2).sum() of an integer image: the squares wrap round in the dtype, the sum in int64 (uint64 for unsigned dtypes) *)
Definition square_sum_int (dt : idtype) (sh : list Z) (a : list Z -> Z) : Z :=
  wrapZ (IDtype (signed dt) 64) (sumNG 0%Z Z.add sh (fun i => int_square dt (a i))).

(** cross_correlation_shifts.py:9-173 for integer images; zeromean subtracts a float mean, after which the images are float arrays.  The options are
    those of M_xcorr.cross_correlation_shifts. *)
Definition cross_correlation_shifts_int (e : env) (agpy : option fitter) (dt1 dt2 : idtype) (image1 image2 : arr Z) (errim1 errim2 : option (arr num))
    (maxoff : option Z) (gaussfit return_error zeromean : bool) (b : boundary) (nthreads : Z)
    (use_numpy_fft allow_huge : bool) : res (list xnum) :=
  if zeromean then cross_correlation_shifts e agpy (as_float image1) (as_float image2) errim1 errim2 maxoff gaussfit return_error true b nthreads use_numpy_fft allow_huge else
  if negb (if list_eq_dec Z.eq_dec (shape image1) (shape image2) then true else false) then Raise ValueError else
  let sh := shape image1 in
  let N := IZR (prodZ sh) in
  let f1 := fun i => IZR (get image1 i) in
  let f2 := fun i => IZR (get image2 i) in
  let corr := fun x y => correlate2d (e_fftw e) (e_gb e) (fin_arr sh x) (fin_arr sh y) b nthreads use_numpy_fft allow_huge in
  let! cc0 := corr f1 f2 in
  let ccorr := amap (fun x => x / N) cc0 in
  if negb (if list_eq_dec Z.eq_dec (shape ccorr) sh then true else false) then Raise ValueError else
  match sh with
  | [ylen; xlen] =>
    let xcen := ccen xlen in
    let ycen := ccen ylen in
    let '(ymax, xmax) := argmax2 ylen xlen (g2 ccorr) in
    if Req_EM_T (g2 ccorr ymax xmax) 0 then Ok [XF 0; XF 0] else
    match maxoff with
    | Some _ => Raise TypeError
    | None =>
      let! em := if return_error then
          (let er := fun (o : option (arr num)) f => match o with None => fin_arr sh (fun _ => std sh f) | Some a => a end in
           let! eccorr := error_corr e (er errim1 f1) (er errim2 f2) sh (fun i => IZR (int_square dt1 (get image1 i)))
                            (fun i => IZR (int_square dt2 (get image2 i))) b nthreads use_numpy_fft allow_huge in
           Ok (Some (arr_rows eccorr)))
        else Ok None in
      if gaussfit then match agpy with Some fit => gauss_shifts fit ylen xlen (g2 ccorr) em | None => Raise ImportError end else
      let xshift_int := IZR xmax - xcen in
      let yshift_int := IZR ymax - ycen in
      let! d := local_derivs ylen xlen (g2 ccorr) ymax xmax in
      let '(fx, fy, fxx, fyy, fxy) := d in
      let shiftsubx := xdiv (XF (fyy * fx - fy * fxy)) (XF (fxy ^ 2 - fxx * fyy)) in
      let shiftsuby := xdiv (XF (fxx * fy - fx * fxy)) (XF (fxy ^ 2 - fxx * fyy)) in
      let xshift := xnegadd xshift_int shiftsubx in
      let yshift := xnegadd yshift_int shiftsuby in
      if return_error then
        let err := zucker N (IZR (square_sum_int dt1 sh (get image1))) (IZR (square_sum_int dt2 sh (get image2))) (g2 ccorr ymax xmax) in
        match err fxx with
        | XNaN => Raise ValueError
        | exshift => Ok [xshift; yshift; exshift; err fyy]
        end
      else Ok [xshift; yshift]
    end
  | _ => Raise ValueError
  end.
