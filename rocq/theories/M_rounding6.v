(** chi2_shift with pixel positions rounded too (continues M_rounding4, where positions were exact): the centre of the map, the
    automatic factor, the positions of the fine grid, the offsets and the error bars are computed with one rounding per operation.
    The bodies repeat M_zoom, M_rounding2 and M_rounding4 line by line; C122_exact (P_rounding6) says that with exact operations this is
    the model of chi2_shift of M_chi2.
    Simplification: integers (sizes, pixel indices) are exact when converted to floats, as they are below 2^53; verbose=False. *)
From Coq Require Import ZArith Lia List Reals Lra Bool.
From Coquelicot Require Import Complex.
From Verif Require Import Base NDim DFT Kernel Num Py M_fast_ffts M_shift M_scale M_zoom M_upsample M_convolve M_correlate Arg M_chi2
  M_rounding M_rounding2 M_rounding3 M_rounding4.
Import ListNotations.
Open Scope R_scope.

(** numpy.linspace(start, stop, num)[j]: delta = stop - start; step = delta / (num - 1); arange(num) * step + start, where
    (arange(num) / (num - 1)) * delta stands for the product if step == 0; the last value is replaced by stop.
    For num = 1 (zero) * delta + start. *)
Definition linspace_at_fp (S : sarith) (start stop : R) (num j : Z) : R :=
  if (num <=? 1)%Z then sa_rd S (0 + start) else
  if (j =? num - 1)%Z then stop else
  let delta := sa_rd S (stop - start) in
  let step := sa_rd S (delta / IZR (num - 1)) in
  let y := if Req_EM_T step 0 then sa_rd S (sa_rd S (IZR j / IZR (num - 1)) * delta) else sa_rd S (IZR j * step) in
  sa_rd S (y + start).
(** zoom.py:88-101: target -+ (outsize-1.)/usfac/2. *)
Definition axis_grid_fp (S : sarith) (coordinates : list R) (usfac : R) (outsize : Z) (ii : nat) (j : Z) : R :=
  match nth_error coordinates ii with
  | Some target => let h := sa_rd S (sa_rd S (IZR (outsize - 1) / usfac) / 2) in
                   linspace_at_fp S (sa_rd S (target - h)) (sa_rd S (target + h)) outsize j
  | None => 0
  end.
(** zoom.py:53-119 [zoom_on_pixel] *)
Definition zoom_on_pixel_fp (B : zarith) (S : sarith) (inp : arr C) (coordinates : list R) (usfac : R)
    (outshape : option (list Z)) (return_real return_xouts : bool) : res zoomres :=
  let inshape := shape inp in
  let outshape := match outshape with None => inshape | Some s => s end in
  if negb (Nat.eqb (length outshape) (length inshape)) then
    Raise (wrong_outshape (length inshape) coordinates usfac outshape)
  else if existsb (fun m => (m <? 0)%Z) outshape then Raise ValueError
  else
    let! _ := if (Nat.eqb (length (combine inshape coordinates)) 0) then Ok tt
              else (let! _ := pydiv 1 usfac in Ok tt) in
    let grid := fun i => match i with
                         | d :: l => axis_grid_fp S coordinates usfac (nth (Z.to_nat d) outshape 0%Z) (Z.to_nat d) (nth (Z.to_nat d) l 0%Z)
                         | [] => 0 end in
    let outarr := Arr (Z.of_nat (length inshape) :: outshape) grid in
    match inshape with
    | [_] =>
      let m := nth 0 outshape 0%Z in
      let sq := if (m =? 1)%Z then Arr [] (fun _ => get outarr [0; 0]%Z) else mk1 m (fun j => get outarr [0%Z; j]) in
      let! result := fourier_interp1d_with B inp sq None return_real in
      Ok (with_xouts return_xouts outarr result)
    | [_; _] =>
      let! result := fourier_interp2d_with B inp (IndArr outarr) return_real in
      Ok (with_xouts return_xouts outarr result)
    | _ => Raise NotImplementedError
    end.
(** zoom.py:121-172 [zoomnd] *)
Definition zoomnd_fp (B : zarith) (S : sarith) (inp : arr C) (offsets : list R) (middle_convention : R -> R) (usfac : R)
    (outshape : option (list Z)) (return_real return_xouts : bool) : res zoomres :=
  if (Nat.ltb 0 (length offsets)) && negb (Nat.eqb (length offsets) (ndim inp)) then Raise ValueError
  else
    let offsets := if Nat.eqb (length offsets) 0 then repeat 0 (ndim inp) else offsets in
    let middlepix := zipw (fun insize off => sa_rd S (middle_convention (sa_rd S (IZR (insize - 1) / 2)) + off)) (shape inp) offsets in
    zoom_on_pixel_fp B S inp middlepix usfac outshape return_real return_xouts.

(** chi2_shifts.py:154-155: xlen/2 - (1 if xlen % 2 == 0 else 0.5) *)
Definition cen_fp (S : sarith) (n : Z) : R := sa_rd S (sa_rd S (IZR n / 2) - (if (n mod 2 =? 0)%Z then 1 else 1 / 2)).
(** chi2_shifts.py:194-196 *)
Definition auto_factor_fp (S : sarith) (max_auto_size size : Z) : res R :=
  let! q := pydiv (sa_rd S (IZR max_auto_size / 2)) (IZR size) in
  let u := sa_rd S q in
  Ok (if Rlt_dec u 1 then 1 else u).
(** chi2_shifts.py:203-210 *)
Definition explicit_window_fp (S : sarith) (u : usarg) (ny nx : Z) : res (R * list Z) :=
  match u with
  | UInt k => let! zf := pydiv (IZR ny) (IZR k) in
              Ok (IZR k, if Rle_dec (sa_rd S zf) 1 then [2 * k; 2 * k]%Z else [ny; nx])
  | UFloat r => let! zf := pydiv (IZR ny) r in
                if Rle_dec (sa_rd S zf) 1 then Raise TypeError else Ok (r, [ny; nx])
  | UAuto => Raise Unmodelled
  end.
(** chi2_shifts.py:254-307 [chi2map_to_errors] *)
Definition chi2map_to_errors_fp (S : sarith) (e : env) (chi2map : arr R) (zoomfactor nsigma nfitted : R) : res (R * R * R * R) :=
  match shape chi2map with
  | [ny; nx] =>
    if Req_EM_T zoomfactor 0 then Raise Unmodelled else
    if (ny <=? 0)%Z || (nx <=? 0)%Z then Raise ValueError else
    let xx := fun p : Z * Z => sa_rd S (sa_rd S (IZR (snd p) - sa_rd S (IZR nx / 2)) / zoomfactor) in
    let yy := fun p : Z * Z => sa_rd S (sa_rd S (IZR (fst p) - sa_rd S (IZR ny / 2)) / zoomfactor) in
    let p := argmin2 ny nx (g2 chi2map) in
    let! thr := sigma_to_chi2 e nsigma nfitted in
    let sel := area_rd S ny nx (g2 chi2map) thr in
    let! xlo := lmin (map xx sel) in
    let! xhi := lmax (map xx sel) in
    let! ylo := lmin (map yy sel) in
    let! yhi := lmax (map yy sel) in
    Ok (sa_rd S (xx p - xlo), sa_rd S (xhi - xx p), sa_rd S (yy p - ylo), sa_rd S (yhi - yy p))
  | _ => Raise ValueError
  end.
(** chi2_shifts.py:145-252: [chi2_shift] after the map *)
Definition chi2_shift_tail_fp (B : zarith) (S : sarith) (e : env) (sh : list Z) (r : chi2res) (upsample_factor : usarg) (nfitted : R)
    (return_error return_chi2array : bool) (max_auto_size : Z) (max_nsig : R) : res (list retval) :=
  match r, sh with
  | Chi2All chi2 _ _ _, [ylen; xlen] =>
    let '(ymax, xmax) := argmin2 ylen xlen (g2 chi2) in
    let yshift := sa_rd S (IZR ymax - cen_fp S ylen) in
    let xshift := sa_rd S (IZR xmax - cen_fp S xlen) in
    let! win := match upsample_factor with
      | UAuto => let! u := auto_factor_fp S max_auto_size (auto_size_rd S e ylen xlen (g2 chi2) max_nsig nfitted) in
                 Ok (u, [max_auto_size; max_auto_size])
      | u => explicit_window_fp S u ylen xlen
      end in
    let '(usfac, outshape) := win in
    let! z := zoomnd_fp B S (RtoCa chi2) [yshift; xshift] (fun x => x) usfac (Some outshape) true true in
    match z, outshape with
    | (Some xouts, RealArr chi2_ups), [s1; s2] =>
      if (s1 <=? 0)%Z || (s2 <=? 0)%Z then Raise ValueError else
      let! errs := chi2map_to_errors_fp S e chi2_ups usfac 1 2 in
      let '(exl, exh, eyl, eyh) := errs in
      let '(i, j) := argmin2 s1 s2 (g2 chi2_ups) in
      let yshift_corr := sa_rd S (get xouts [0%Z; i; j] - cen_fp S ylen) in
      let xshift_corr := sa_rd S (get xouts [1%Z; i; j] - cen_fp S xlen) in
      Ok ([RNum (- xshift_corr); RNum (- yshift_corr)] ++
          (if return_error then [RNum (sa_rd S (sa_rd S (exl + exh) / 2)); RNum (sa_rd S (sa_rd S (eyl + eyh) / 2))] else []) ++
          (if return_chi2array
           then [RMaps (mk2 s1 s2 (fun i j => sa_rd S (get xouts [1%Z; i; j] - cen_fp S xlen)))
                       (mk2 s1 s2 (fun i j => sa_rd S (get xouts [0%Z; i; j] - cen_fp S ylen))) chi2_ups]
           else []))
    | _, _ => Raise Unmodelled
    end
  | _, _ => Raise ValueError
  end.
(** chi2_shifts.py:13-252 [chi2_shift] *)
Definition chi2_shift_fp (A : arith) (S : sarith) (B : zarith) (e : env) (im1 im2 : arr num) (err : errarg) (upsample_factor : usarg) (b : boundary)
    (zeromean : bool) (nfitted : R) (return_error return_chi2array : bool)
    (max_auto_size : Z) (max_nsig : R) (allow_huge : bool) : res (list retval) :=
  let! r := chi2n_map_rd A S (e_gb e) im1 im2 err b zeromean true false allow_huge in
  chi2_shift_tail_fp B S e (shape im1) r upsample_factor nfitted return_error return_chi2array max_auto_size max_nsig.
