(** cross_correlation_shifts with every operation on pixel values, derivatives and offsets rounded (continues M_rounding3).  The bodies
    repeat M_xcorr line by line; the [.._exact] lemma says that with exact operations they are the functions of M_xcorr.
    Simplification: pixel coordinates (half-integers) and comparisons are exact; gaussfit=False, return_error=False. *)
From Coq Require Import ZArith Lia List Reals Lra Bool.
From Coquelicot Require Import Complex.
From Verif Require Import Base NDim DFT Kernel Num Py M_fast_ffts M_shift M_convolve M_correlate Arg M_chi2 M_xcorr M_rounding M_rounding3.
Import ListNotations.
Open Scope R_scope.

(** cross_correlation_shifts.py:175-216 [second_derivative] *)
Definition second_derivative_rd (S : sarith) (image : arr R) : res (arr R * arr R * arr R) :=
  match shape image with
  | [ny; nx] =>
    let im := g2 image in
    let rd := sa_rd S in
    let shift_right := zcol 0 (roll1 1 im ny nx) in
    let shift_left := zcol (nx - 1) (roll1 (-1) im ny nx) in
    let shift_down := zrow 0 (roll0 1 im ny nx) in
    let shift_up := zrow (ny - 1) (roll0 (-1) im ny nx) in
    let shift_up_right := zcol 0 (roll1 1 shift_up ny nx) in
    let shift_down_left := zcol (nx - 1) (roll1 (-1) shift_down ny nx) in
    let shift_down_right := zrow 0 (roll0 1 shift_right ny nx) in
    let shift_up_left := zrow (ny - 1) (roll0 (-1) shift_left ny nx) in
    let dxx := fun i j => rd (rd (shift_right i j + shift_left i j) - rd (2 * im i j)) in
    let dyy := fun i j => rd (rd (shift_up i j + shift_down i j) - rd (2 * im i j)) in
    let dxy := fun i j => rd (1 / 4 * rd (rd (rd (shift_up_right i j + shift_down_left i j) - shift_up_left i j) - shift_down_right i j)) in
    Ok (mk2 ny nx dxx, mk2 ny nx dyy, mk2 ny nx dxy)
  | _ => Raise Unmodelled
  end.

(** np.gradient along one axis *)
Definition grad1_rd (S : sarith) (n : Z) (f : Z -> R) (k : Z) : R :=
  let rd := sa_rd S in
  if (k =? 0)%Z then rd (f 1%Z - f 0%Z) else if (k =? n - 1)%Z then rd (f (n - 1)%Z - f (n - 2)%Z) else rd (rd (f (k + 1)%Z - f (k - 1)%Z) / 2).
Definition gradient_rd (S : sarith) (a : arr R) : res (arr R * arr R) :=
  match shape a with
  | [ny; nx] => if (ny <? 2)%Z || (nx <? 2)%Z then Raise ValueError else
      Ok (mk2 ny nx (fun i j => grad1_rd S ny (fun k => g2 a k j) i), mk2 ny nx (fun i j => grad1_rd S nx (fun k => g2 a i k) j))
  | _ => Raise Unmodelled
  end.

(** cross_correlation_shifts.py:138-143 *)
Definition local_derivs_rd (S : sarith) (ylen xlen : Z) (ccorr : Z -> Z -> R) (ymax xmax : Z) : res (R * R * R * R * R) :=
  let '(y0, h) := pyslice ylen (ymax - 1) (ymax + 2) in
  let '(x0, w) := pyslice xlen (xmax - 1) (xmax + 2) in
  let local_values := mk2 h w (fun i j => ccorr (y0 + i)%Z (x0 + j)%Z) in
  let! d1 := gradient_rd S local_values in
  let '(d1y, d1x) := d1 in
  let! d2 := second_derivative_rd S local_values in
  let '(d2y, d2x, dxy) := d2 in
  Ok (g2 d1x 1%Z 1%Z, g2 d1y 1%Z 1%Z, g2 d2x 1%Z 1%Z, g2 d2y 1%Z 1%Z, g2 dxy 1%Z 1%Z).

(** rounding of a float64 that may be nan or infinite *)
Definition xrd (S : sarith) (x : xnum) : xnum := match x with XF r => XF (sa_rd S r) | _ => x end.
(** -(r + x): the sum is rounded, the sign is not *)
Definition xnegadd_rd (S : sarith) (r : R) (x : xnum) : xnum := match x with XF a => XF (- sa_rd S (r + a)) | XNaN => XNaN | XInf => XInf end.

(** cross_correlation_shifts.py:9-173 [cross_correlation_shifts] with maxoff=None, gaussfit=False and return_error=False *)
Definition cross_correlation_shifts_rd (A : arith) (S : sarith) (gb : Z) (image1 image2 : arr num) (zeromean : bool) (b : boundary) (allow_huge : bool) : res (list xnum) :=
  if negb (if list_eq_dec Z.eq_dec (shape image1) (shape image2) then true else false) then Raise ValueError else
  let sh := shape image1 in
  let rd := sa_rd S in
  let N := IZR (prodZ sh) in
  let a1 := zero_mean_rd S zeromean image1 in
  let a2 := zero_mean_rd S zeromean image2 in
  let f1 := fun i => nan0 (get a1 i) in
  let f2 := fun i => nan0 (get a2 i) in
  let! cc0 := correlate2d_with A gb (fin_arr sh f1) (fin_arr sh f2) b allow_huge in
  let ccorr := amap (fun x => rd (x / N)) cc0 in
  if negb (if list_eq_dec Z.eq_dec (shape ccorr) sh then true else false) then Raise ValueError else
  match sh with
  | [ylen; xlen] =>
    let xcen := ccen xlen in
    let ycen := ccen ylen in
    let '(ymax, xmax) := argmax2 ylen xlen (g2 ccorr) in
    if Req_EM_T (g2 ccorr ymax xmax) 0 then Ok [XF 0; XF 0] else
    let xshift_int := IZR xmax - xcen in
    let yshift_int := IZR ymax - ycen in
    let! d := local_derivs_rd S ylen xlen (g2 ccorr) ymax xmax in
    let '(fx, fy, fxx, fyy, fxy) := d in
    let det := rd (rd (fxy ^ 2) - rd (fxx * fyy)) in
    let shiftsubx := xrd S (xdiv (XF (rd (rd (fyy * fx) - rd (fy * fxy)))) (XF det)) in
    let shiftsuby := xrd S (xdiv (XF (rd (rd (fxx * fy) - rd (fx * fxy)))) (XF det)) in
    Ok [xnegadd_rd S xshift_int shiftsubx; xnegadd_rd S yshift_int shiftsuby]
  | _ => Raise ValueError
  end.

Lemma xrd_exact x : xrd exact_sarith x = x.
Proof. destruct x; reflexivity. Qed.
Lemma xcorr_rd_exact e agpy im1 im2 er1 er2 zm b nt np huge :
  cross_correlation_shifts_rd (exact_arith (e_fftw e) nt np) exact_sarith (e_gb e) im1 im2 zm b huge = cross_correlation_shifts e agpy im1 im2 er1 er2 None false false zm b nt np huge.
Proof.
  unfold cross_correlation_shifts_rd, cross_correlation_shifts. destruct (negb _); [reflexivity|]. cbv zeta. rewrite !zero_mean_exact.
  rewrite correlate2d_exact. destruct (correlate2d _ _ _ _ _ _ _ _) as [cc|]; [|reflexivity]. cbn [bind].
  change (amap (fun x => sa_rd exact_sarith (x / IZR (prodZ (shape im1)))) cc) with (amap (fun x => x / IZR (prodZ (shape im1))) cc).
  destruct (negb _); [reflexivity|]. destruct (shape im1) as [|ny [|nx [|? ?]]]; try reflexivity. destruct (argmax2 _ _ _) as [y x]. destruct (Req_EM_T _ 0); [reflexivity|].
  change (local_derivs_rd exact_sarith) with local_derivs. destruct (local_derivs _ _ _ _ _) as [[[[[fx fy] fxx] fyy] fxy]|]; [|reflexivity]. cbn [bind]. rewrite !xrd_exact. reflexivity.
Qed.
