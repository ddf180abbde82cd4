(** Model of image_registration/cross_correlation_shifts.py: cross_correlation_shifts, second_derivative *)
From Coq Require Import ZArith Lia List Reals Lra Bool.
From Coquelicot Require Import Complex.
From Verif Require Import Base NDim DFT Kernel Py M_fast_ffts M_shift M_convolve M_correlate Arg M_chi2.
Import ListNotations.
Open Scope R_scope.

(** numpy float64 scalars: dividing by zero gives nan or an infinity (a warning, no exception).  The sign of an infinity
    is not tracked. *)
Inductive xnum := XF (r : R) | XNaN | XInf.
Definition xdiv (x y : xnum) : xnum :=
  match x, y with
  | XNaN, _ | _, XNaN => XNaN
  | XF a, XF b => if Req_EM_T b 0 then (if Req_EM_T a 0 then XNaN else XInf) else XF (a / b)
  | XF _, XInf => XF 0
  | XInf, XF _ => XInf
  | XInf, XInf => XNaN
  end.
Definition xmul (x y : xnum) : xnum :=
  match x, y with
  | XNaN, _ | _, XNaN => XNaN
  | XF a, XF b => XF (a * b)
  | XF a, XInf | XInf, XF a => if Req_EM_T a 0 then XNaN else XInf
  | XInf, XInf => XInf
  end.
(** -(r + x) for a finite r *)
Definition xnegadd (r : R) (x : xnum) : xnum := match x with XF a => XF (- (r + a)) | XNaN => XNaN | XInf => XInf end.
(** np.abs(x)**-0.5 *)
Definition xabs_pow_mhalf (x : xnum) : xnum :=
  match x with XNaN => XNaN | XInf => XF 0 | XF a => if Req_EM_T a 0 then XInf else XF (/ sqrt (Rabs a)) end.

(** Python slice a:b on an axis of length n: (first index, length) *)
Definition pyslice (n a b : Z) : Z * Z :=
  let norm k := Z.min n (if (k <? 0)%Z then Z.max 0 (k + n) else k) in
  (norm a, Z.max 0 (norm b - norm a))%Z.

(** np.roll(image, k, axis) of a 2-D image; image[r, :] = 0; image[:, c] = 0 (r, c >= 0 here: -1 is given as n-1) *)
Definition roll0 (k : Z) (a : Z -> Z -> R) (ny nx : Z) : Z -> Z -> R := fun i j => a ((i - k) mod ny)%Z j.
Definition roll1 (k : Z) (a : Z -> Z -> R) (ny nx : Z) : Z -> Z -> R := fun i j => a i ((j - k) mod nx)%Z.
Definition zrow (r : Z) (a : Z -> Z -> R) : Z -> Z -> R := fun i j => if (i =? r)%Z then 0 else a i j.
Definition zcol (c : Z) (a : Z -> Z -> R) : Z -> Z -> R := fun i j => if (j =? c)%Z then 0 else a i j.

(** cross_correlation_shifts.py:175-216 [second_derivative] of a 2-D image with at least one pixel *)
Definition second_derivative (image : arr R) : res (arr R * arr R * arr R) :=
  match shape image with
  | [ny; nx] =>
    let im := g2 image in
    let shift_right := zcol 0 (roll1 1 im ny nx) in
    let shift_left := zcol (nx - 1) (roll1 (-1) im ny nx) in
    let shift_down := zrow 0 (roll0 1 im ny nx) in
    let shift_up := zrow (ny - 1) (roll0 (-1) im ny nx) in
    let shift_up_right := zcol 0 (roll1 1 shift_up ny nx) in
    let shift_down_left := zcol (nx - 1) (roll1 (-1) shift_down ny nx) in
    let shift_down_right := zrow 0 (roll0 1 shift_right ny nx) in
    let shift_up_left := zrow (ny - 1) (roll0 (-1) shift_left ny nx) in
    let dxx := fun i j => shift_right i j + shift_left i j - 2 * im i j in
    let dyy := fun i j => shift_up i j + shift_down i j - 2 * im i j in
    let dxy := fun i j => 1 / 4 * (shift_up_right i j + shift_down_left i j - shift_up_left i j - shift_down_right i j) in
    Ok (mk2 ny nx dxx, mk2 ny nx dyy, mk2 ny nx dxy)
  | _ => Raise Unmodelled
  end.

(** np.gradient along one axis (edge_order 1): central differences inside, one-sided at the two ends *)
Definition grad1 (n : Z) (f : Z -> R) (k : Z) : R :=
  if (k =? 0)%Z then f 1%Z - f 0%Z else if (k =? n - 1)%Z then f (n - 1)%Z - f (n - 2)%Z else (f (k + 1)%Z - f (k - 1)%Z) / 2.
(** np.gradient of a 2-D image: [d/dy, d/dx]; an axis with fewer than two samples raises ValueError *)
Definition gradient (a : arr R) : res (arr R * arr R) :=
  match shape a with
  | [ny; nx] => if (ny <? 2)%Z || (nx <? 2)%Z then Raise ValueError else
      Ok (mk2 ny nx (fun i j => grad1 ny (fun k => g2 a k j) i), mk2 ny nx (fun i j => grad1 nx (fun k => g2 a i k) j))
  | _ => Raise Unmodelled
  end.

(** image.std() of a NaN-free image *)
Definition std (sh : list Z) (f : list Z -> R) : R :=
  let N := IZR (prodZ sh) in let m := sumNR sh f / N in sqrt (sumNR sh (fun i => (f i - m) ^ 2) / N).

(** cross_correlation_shifts.py:80-81: xlen/2 - (1 - xlen%2) *)
Definition ccen (n : Z) : R := IZR n / 2 - IZR (1 - n mod 2).

(** cross_correlation_shifts.py:138-143: fx, fy, fxx, fyy, fxy at the peak (note the order in which the three results of
    second_derivative are unpacked) *)
Definition local_derivs (ylen xlen : Z) (ccorr : Z -> Z -> R) (ymax xmax : Z) : res (R * R * R * R * R) :=
  let '(y0, h) := pyslice ylen (ymax - 1) (ymax + 2) in
  let '(x0, w) := pyslice xlen (xmax - 1) (xmax + 2) in
  let local_values := mk2 h w (fun i j => ccorr (y0 + i)%Z (x0 + j)%Z) in
  let! d1 := gradient local_values in
  let '(d1y, d1x) := d1 in
  let! d2 := second_derivative local_values in
  let '(d2y, d2x, dxy) := d2 in
  Ok (g2 d1x 1%Z 1%Z, g2 d1y 1%Z 1%Z, g2 d2x 1%Z 1%Z, g2 d2y 1%Z 1%Z, g2 dxy 1%Z 1%Z).

(** cross_correlation_shifts.py:158-164: the error for second derivative d; s1, s2 = sums of squares of the two images,
    p = peak correlation, N = number of pixels *)
Definition zucker (N s1 s2 p d : R) : xnum :=
  let normalization := xdiv (xdiv (XF 1) (XF (s1 / N))) (XF (s2 / N)) in
  let ccn := xmul (XF p) normalization in
  let one_minus := match xmul ccn ccn with XF r => XF (1 - r) | x => x end in
  xabs_pow_mhalf (xmul (xdiv (xmul (XF ((-1) * N * d)) normalization) ccn) (xdiv (xmul ccn ccn) one_minus)).

Definition num_sq (x : num) : num := match x with Fin r => Fin (r ^ 2) | NaN => NaN end.
(** numpy broadcasting of two shapes of the same rank *)
Definition broadcasts (s1 s2 : list Z) : bool := forallb (fun p : Z * Z => (fst p =? snd p)%Z || (fst p =? 1)%Z || (snd p =? 1)%Z) (combine s1 s2).
(** the shape two broadcastable shapes make, and the element of an array of shape s that index i of the result is made from *)
Definition broadcast_shape (s1 s2 : list Z) : list Z := zipw (fun a b => if (a =? 1)%Z then b else a) s1 s2.
Definition broadcast_index (s i : list Z) : list Z := zipw (fun n k => if (n =? 1)%Z then 0%Z else k) s i.
(** x**0.5 / N; the square root of a negative number is nan *)
Definition half_power_over (N x : R) : num := if Rlt_dec x 0 then NaN else Fin (sqrt x / N).
(** cross_correlation_shifts.py:106-113: the error of the correlation; q1, q2: the squared images.  The two correlations have the shapes of the
    error images and must broadcast. *)
Definition error_corr (e : env) (er1 er2 : arr num) (sh : list Z) (q1 q2 : list Z -> R) (b : boundary) (nthreads : Z)
    (use_numpy_fft allow_huge : bool) : res (arr num) :=
  let corr := fun x y => correlate2d (e_fftw e) (e_gb e) x (fin_arr sh y) b nthreads use_numpy_fft allow_huge in
  let! c1 := corr (amap num_sq er1) q2 in
  let! c2 := corr (amap num_sq er2) q1 in
  if broadcasts (shape c1) (shape c2)
  then Ok (Arr (broadcast_shape (shape c1) (shape c2)) (fun i => half_power_over (IZR (prodZ sh))
             (get c1 (broadcast_index (shape c1) i) + get c2 (broadcast_index (shape c2) i))))
  else Raise ValueError.

(** agpy.gaussfitter.gaussfit(data, err=None, return_all=True), a function outside the repository: data and errors as lists of rows; the fitted
    parameters and their errors (of which [2] is x and [3] is y).  Simplification: fitted parameters are finite. *)
Definition fitter := list (list R) -> option (list (list num)) -> res (list R * list R).
Definition rows {A} (ny nx : Z) (m : Z -> Z -> A) : list (list A) :=
  map (fun i => map (fun j => m (Z.of_nat i) (Z.of_nat j)) (seq 0 (Z.to_nat nx))) (seq 0 (Z.to_nat ny)).
Definition arr_rows {A} (a : arr A) : list (list A) := rows (nth 0 (shape a) 0%Z) (nth 1 (shape a) 0%Z) (g2 a).
Definition item (l : list R) (k : nat) : res R := match nth_error l k with Some r => Ok r | None => Raise IndexError end.
(** cross_correlation_shifts.py:124-131, 169-172 with maxoff=None; em: the error map if return_error *)
Definition gauss_shifts (fit : fitter) (ylen xlen : Z) (ccorr : Z -> Z -> R) (em : option (list (list num))) : res (list xnum) :=
  let! pe := fit (rows ylen xlen ccorr) em in
  let '(pars, epars) := pe in
  let! errors := match em with
                 | Some _ => let! ex := item epars 2 in let! ey := item epars 3 in Ok [XF ex; XF ey]
                 | None => Ok []
                 end in
  let! px := item pars 2 in
  let! py := item pars 3 in
  Ok (XF (ccen xlen - px) :: XF (ccen ylen - py) :: errors).

(** cross_correlation_shifts.py:9-173 [cross_correlation_shifts].  [agpy]: the optional fitter, if it can be
    imported.  Of **kwargs the boundary, nthreads, use_numpy_fft and allow_huge options of
    correlate2d are modelled.
    xcen, ycen are Python floats (true division), so slicing with them (maxoff) raises TypeError.
    [verbose] only prints. *)
Definition cross_correlation_shifts (e : env) (agpy : option fitter) (image1 image2 : arr num) (errim1 errim2 : option (arr num))
    (maxoff : option Z) (gaussfit return_error zeromean : bool) (b : boundary) (nthreads : Z)
    (use_numpy_fft allow_huge : bool) : res (list xnum) :=
  if negb (if list_eq_dec Z.eq_dec (shape image1) (shape image2) then true else false) then Raise ValueError else
  let sh := shape image1 in
  let N := IZR (prodZ sh) in
  let a1 := zero_mean zeromean image1 in
  let a2 := zero_mean zeromean image2 in
  let f1 := fun i => nan0 (get a1 i) in
  let f2 := fun i => nan0 (get a2 i) in
  let corr := fun x y => correlate2d (e_fftw e) (e_gb e) (fin_arr sh x) (fin_arr sh y) b nthreads use_numpy_fft allow_huge in
  let! cc0 := corr f1 f2 in
  let ccorr := amap (fun x => x / N) cc0 in
  if negb (if list_eq_dec Z.eq_dec (shape ccorr) sh then true else false) then Raise ValueError else
  match sh with
  | [ylen; xlen] =>
    let xcen := ccen xlen in
    let ycen := ccen ylen in
    let '(ymax, xmax) := argmax2 ylen xlen (g2 ccorr) in
    if Req_EM_T (g2 ccorr ymax xmax) 0 then Ok [XF 0; XF 0] else
    match maxoff with
    | Some _ => Raise TypeError
    | None =>
      let! em := if return_error then
          (let er := fun (o : option (arr num)) f => match o with None => fin_arr sh (fun _ => std sh f) | Some a => a end in
           let! eccorr := error_corr e (er errim1 f1) (er errim2 f2) sh (fun i => (f1 i) ^ 2) (fun i => (f2 i) ^ 2) b nthreads use_numpy_fft allow_huge in
           Ok (Some (arr_rows eccorr)))
        else Ok None in
      if gaussfit then match agpy with Some fit => gauss_shifts fit ylen xlen (g2 ccorr) em | None => Raise ImportError end else
      let xshift_int := IZR xmax - xcen in
      let yshift_int := IZR ymax - ycen in
      let! d := local_derivs ylen xlen (g2 ccorr) ymax xmax in
      let '(fx, fy, fxx, fyy, fxy) := d in
      let shiftsubx := xdiv (XF (fyy * fx - fy * fxy)) (XF (fxy ^ 2 - fxx * fyy)) in
      let shiftsuby := xdiv (XF (fxx * fy - fx * fxy)) (XF (fxy ^ 2 - fxx * fyy)) in
      let xshift := xnegadd xshift_int shiftsubx in
      let yshift := xnegadd yshift_int shiftsuby in
      if return_error then
        let err := zucker N (sumNR sh (fun i => (f1 i) ^ 2)) (sumNR sh (fun i => (f2 i) ^ 2)) (g2 ccorr ymax xmax) in
        match err fxx with
        | XNaN => Raise ValueError
        | exshift => Ok [xshift; yshift; exshift; err fyy]
        end
      else Ok [xshift; yshift]
    end
  | _ => Raise ValueError
  end.
