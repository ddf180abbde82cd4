(** Model of image_registration/FITS_tools (fits_overlap.py, match_images.py, load_header.py) and of
    cross_correlation_shifts_FITS.  astropy.io.fits, astropy.wcs, reproject and astropy.stats are outside the repository:
    they enter as functions ([World], [wcs]) the model is parametrised by. *)
From Coq Require Import ZArith Lia List Reals Lra Bool String.
From Coquelicot Require Import Complex.
From Verif Require Import Base NDim DFT Kernel Num Py M_shift M_xcorr.
Import ListNotations.
Open Scope R_scope.

(** *** FITS headers: an ordered list of cards (keyword, value); comments are not modelled *)
Inductive hval := HInt (z : Z) | HFloat (r : R) | HStr (s : string).
Definition header := list (string * hval).
(** header[k]: the first card of that keyword, KeyError if there is none *)
Fixpoint hget (h : header) (k : string) : res hval :=
  match h with
  | [] => Raise KeyError
  | (k', v) :: h' => if String.eqb k' k then Ok v else hget h' k
  end.
(** header[k] = v: overwrite the first card of that keyword, or append one *)
Fixpoint hset (h : header) (k : string) (v : hval) : header :=
  match h with
  | [] => [(k, v)]
  | (k', v') :: h' => if String.eqb k' k then (k', v) :: h' else (k', v') :: hset h' k v
  end.
(** del header[k] *)
Definition hdel (h : header) (k : string) : header := filter (fun c => negb (String.eqb (fst c) k)) h.
Definition hhas (h : header) (k : string) : bool := existsb (fun c => String.eqb (fst c) k) h.
(** header['NAXISn']: a number (a text card is outside the model) *)
Definition hnum (h : header) (k : string) : res R :=
  let! v := hget h k in
  match v with HInt z => Ok (IZR z) | HFloat r => Ok r | HStr _ => Raise Unmodelled end.

(** *** astropy.wcs.WCS(header) for a two-dimensional header: pixel (1-based) to world transform, CD matrix
    (reading it raises AttributeError if the header has none), CDELT *)
Record wcs := Wcs { pix2world : R * R -> R * R; w_cd : option (R * R * R * R); w_cdelt : R * R }.

(** numpy sign *)
Definition np_sign (x : R) : R := if Rlt_dec x 0 then -1 else if Rlt_dec 0 x then 1 else 0.

(** fits_overlap.py:49-52: x - 360 above max_separation, x + 360 below -max_separation *)
Definition wrap_deg (sep x : R) : R := if Rlt_dec sep x then x - 360 else if Rlt_dec x (- sep) then x + 360 else x.

(** fits_overlap.py:55-62: order the two corners along one axis *)
Definition order2 (a b : R) : R * R := if Rlt_dec b a then (b, a) else (a, b).

(** fits_overlap.py:64-75 along one axis *)
Definition merge_axis (overlap : string) (lo1 hi1 lo2 hi2 : R) : res (R * R) :=
  if String.eqb overlap "union" then Ok (Rmin lo1 lo2, Rmax hi1 hi2)
  else if String.eqb overlap "intersection" then Ok (Rmax lo1 lo2, Rmin hi1 hi2)
  else Raise ValueError.

(** fits_overlap.py:77-80: finer of the two pixel scales with the sign of the first header's; diagonals of the CD
    matrices if both can be read, else CDELT *)
Definition pixel_scales (w1 w2 : wcs) : R * R :=
  match w_cd w1, w_cd w2 with
  | Some (a11, _, _, a22), Some (b11, _, _, b22) =>
      (Rmin (Rabs a11) (Rabs b11) * np_sign a11, Rmin (Rabs a22) (Rabs b22) * np_sign a22)
  | _, _ =>
      (Rmin (Rabs (fst (w_cdelt w1))) (Rabs (fst (w_cdelt w2))) * np_sign (fst (w_cdelt w1)),
       Rmin (Rabs (snd (w_cdelt w1))) (Rabs (snd (w_cdelt w2))) * np_sign (snd (w_cdelt w1)))
  end.

(** fits_overlap.py:82-90 along one axis.  numpy's x/0. is inf or nan: int() of them raises OverflowError, ValueError *)
Definition axis_size (lo1 hi1 lo2 hi2 lo hi cdelt : R) : res Z :=
  if Rlt_dec hi2 lo1 then Ok 0%Z else
  if Rlt_dec hi1 lo2 then Ok 0%Z else
  if Req_EM_T cdelt 0 then (if Req_EM_T (hi - lo) 0 then Raise ValueError else Raise OverflowError)
  else Ok (ceilR (Rabs ((hi - lo) / cdelt))).

(** fits_overlap.py:25-114 [header_overlap].  [WCS] is astropy.wcs.WCS; its transform is assumed to give finite numbers. *)
Definition header_overlap (WCS : header -> res wcs) (hdr1 hdr2 : header) (max_separation : R) (overlap : string) : res header :=
  let! w1 := WCS hdr1 in
  let! w2 := WCS hdr2 in
  let! n11 := hnum hdr1 "NAXIS1" in
  let! n12 := hnum hdr1 "NAXIS2" in
  let '(xmax1, ymax1) := pix2world w1 (n11, n12) in
  let! n21 := hnum hdr2 "NAXIS1" in
  let! n22 := hnum hdr2 "NAXIS2" in
  let '(xmax2, ymax2) := pix2world w2 (n21, n22) in
  let '(xmin1, ymin1) := pix2world w1 (1, 1) in
  let '(xmin2, ymin2) := pix2world w2 (1, 1) in
  let wr := wrap_deg max_separation in
  let '(xmin1, xmax1, xmin2, xmax2) := (wr xmin1, wr xmax1, wr xmin2, wr xmax2) in
  let '(xmin2, xmax2) := order2 xmin2 xmax2 in
  let '(xmin1, xmax1) := order2 xmin1 xmax1 in
  let '(ymin2, ymax2) := order2 ymin2 ymax2 in
  let '(ymin1, ymax1) := order2 ymin1 ymax1 in
  let! mx := merge_axis overlap xmin1 xmax1 xmin2 xmax2 in
  let! my := merge_axis overlap ymin1 ymax1 ymin2 ymax2 in
  let '(xmin, xmax) := mx in
  let '(ymin, ymax) := my in
  let '(cdelt1, cdelt2) := pixel_scales w1 w2 in
  let! naxis1 := axis_size xmin1 xmax1 xmin2 xmax2 xmin xmax cdelt1 in
  let! naxis2 := axis_size ymin1 ymax1 ymin2 ymax2 ymin ymax cdelt2 in
  let h := hset hdr1 "CRVAL1" (HFloat ((xmin + xmax) / 2)) in
  let h := hset h "CRVAL2" (HFloat ((ymin + ymax) / 2)) in
  let h := hset h "CDELT1" (HFloat cdelt1) in
  let h := hset h "CDELT2" (HFloat cdelt2) in
  let h := fold_left (fun h k => if hhas h k then hdel h k else h) ["CD1_1"; "CD1_2"; "CD2_1"; "CD2_2"]%string h in
  let h := hset h "NAXIS1" (HInt naxis1) in
  let h := hset h "NAXIS2" (HInt naxis2) in
  let h := hset h "CRPIX1" (HFloat (IZR naxis1 / 2)) in
  Ok (hset h "CRPIX2" (HFloat (IZR naxis2 / 2))).

(** *** What the functions below can be given as an image or header *)
Inductive src :=
| SHeader (h : header)                                    (* a Header (or dict): has a .get attribute *)
| SHDU (h : header) (d : option (arr num))                (* an HDU: .header and .data; the data may be None *)
| SHDUList (l : list (header * option (arr num)))         (* an HDUList *)
| SArr (a : arr num)                                      (* a numpy array *)
| SStr (s : string).                                      (* a string: path or header text *)

(** the outside world: astropy.io.fits, astropy.wcs, reproject, astropy.stats.mad_std and np.nanstd *)
Record world := World {
  io_getheader : src -> res header;      (* fits.getheader *)
  io_fromtextfile : src -> res header;   (* fits.Header().fromtextfile *)
  io_fromstring : src -> res header;     (* fits.Header().fromstring(header, '\n') *)
  io_getdata : src -> res (arr num);     (* fits.getdata *)
  io_wcs : header -> res wcs;            (* astropy.wcs.WCS *)
  io_reproject : src -> header -> res (arr num);  (* reproject.reproject_interp(...)[0] *)
  io_mad_std : arr num -> num;           (* stats.mad_std(image, ignore_nan=True) *)
  io_nanstd : arr num -> num }.          (* np.nanstd *)

(** load_header.py:5-24 [load_header] *)
Definition load_header (W : world) (s : src) : res header :=
  match s with
  | SHeader h => Ok h
  | SHDU h _ => Ok h
  | _ =>
    match io_getheader W s with
    | Raise IOError => match io_fromtextfile W s with Raise IOError => io_fromstring W s | r => r end
    | r => r
    end
  end.

(** load_header.py:26-42 [load_data]; None when no branch returns *)
Definition load_data (W : world) (s : src) : res (option (arr num)) :=
  match s with
  | SArr a => Ok (Some a)
  | _ =>
    match io_getdata W s with
    | Raise IOError =>
      match s with
      | SHDU _ (Some a) => Ok (Some a)
      | SHDUList [] => Raise IndexError
      | SHDUList ((_, d) :: _) => Ok d
      | _ => Ok None
      end
    | Raise e => Raise e
    | Ok a => Ok (Some a)
    end
  end.

(** Python index k into an axis of length 2 *)
Definition index2 {A} (k : Z) (a b : A) : res A :=
  if (k =? 0)%Z || (k =? -2)%Z then Ok a else if (k =? 1)%Z || (k =? -1)%Z then Ok b else Raise IndexError.
(** load_header.py:45-56 [get_cd] on a two-dimensional WCS; None when the function falls off its end *)
Definition get_cd (w : wcs) (n : Z) : res (option R) :=
  match w_cd w with
  | Some (c11, _, _, c22) => let! c := index2 (n - 1) c11 c22 in Ok (if Req_EM_T c 0 then None else Some c)
  | None => let! c := index2 (n - 1) (fst (w_cdelt w)) (snd (w_cdelt w)) in Ok (Some c)
  end.

(** fits_overlap.py:9-23 [fits_overlap] *)
Definition fits_overlap (W : world) (file1 file2 : src) (max_separation : R) (overlap : string) : res header :=
  let! h1 := io_getheader W file1 in
  let! h2 := io_getheader W file2 in
  header_overlap (io_wcs W) h1 h2 max_separation overlap.

(** *** match_images.py *)
(** match_images.py:12-31 [project_to_header] *)
Definition project_to_header (W : world) (s : src) (h : header) : res (arr num) := io_reproject W s h.

(** x > t with NaN *)
Definition num_gt (x t : num) : bool := match x, t with Fin a, Fin b => if Rlt_dec b a then true else false | _, _ => false end.
Definition num_scale (k : R) (x : num) : num := match x with Fin a => Fin (a * k) | NaN => NaN end.
(** image*(image > t): multiplication by a boolean; NaN*False is NaN *)
Definition cut_below (a : arr num) (t : num) : arr num :=
  amap (fun x => match x with NaN => NaN | Fin r => Fin (r * (if num_gt x t then 1 else 0)) end) a.
(** (a[OK]*b[OK]).sum() over the pixels where neither is NaN *)
Definition common_signal (a b : arr num) : R :=
  sumNR (shape a) (fun i => match get a i, get b i with Fin x, Fin y => x * y | _, _ => 0 end).
(** if sigma_cut: None, False and 0 are false *)
Definition truthy (o : option R) : option R := match o with Some s => if Req_EM_T s 0 then None else Some s | None => None end.
Definition same_shape {A B} (a : arr A) (b : arr B) : bool := if list_eq_dec Z.eq_dec (shape a) (shape b) then true else false.
(** match_images.py:72-83, with the noise estimates given *)
Definition sigma_cut_images (std1 std2 : num) (image1 image2 : arr num) (sigma_cut : option R) : arr num * arr num :=
  match truthy sigma_cut with
  | Some s =>
    let c1 := cut_below image1 (num_scale s std1) in
    let c2 := cut_below image2 (num_scale s std2) in
    if Req_EM_T (common_signal c1 c2) 0 then (image1, image2) else (c1, c2)
  | None => (image1, image2)
  end.

(** match_images.py:34-91 [match_fits]; the result carries the header whether or not return_header was asked for *)
Definition match_fits (W : world) (fitsfile1 fitsfile2 : src) (hdr : option header) (sigma_cut : option R)
    (use_mad_std : bool) : res (arr num * arr num * header) :=
  let! hi := match hdr with
    | None =>
      let! h := load_header W fitsfile1 in
      let! d := load_data W fitsfile1 in
      Ok (h, d)
    | Some h => let! a := project_to_header W fitsfile1 h in Ok (h, Some a)
    end in
  let '(h, o1) := hi in
  let! image2 := project_to_header W fitsfile2 h in
  match o1 with
  | None => Raise AttributeError                                     (* None.shape *)
  | Some image1 =>
    if negb (same_shape image1 image2) then Raise ValueError else
    let std := if use_mad_std then io_mad_std W else io_nanstd W in
    let '(c1, c2) := sigma_cut_images (std image1) (std image2) image1 image2 sigma_cut in
    Ok (c1, c2, h)
  end.

(** one item of the tuple register_fits returns *)
Inductive fitem := FNum (r : R) | FImg (a : arr num) | FShifted (a : anyarr) | FHdr (h : header).

(** match_images.py:94-184 [register_fits] without further keyword arguments.  [register_method] is called with err= and
    return_error=True; its result is unpacked into four numbers. *)
Definition register_fits (has_fftw : bool) (W : world) (fitsfile1 fitsfile2 : src) (errfile : option src) (return_error : bool)
    (register_method : arr num -> arr num -> option (arr num) -> res (list R))
    (return_cropped_images return_shifted_image return_header : bool) (sigma_cut : option R) : res (list fitem) :=
  let! m := match_fits W fitsfile1 fitsfile2 None sigma_cut true in
  let '(im1, im2, h) := m in
  let! err := match errfile with Some f => let! a := project_to_header W f h in Ok (Some a) | None => Ok None end in
  let! r := register_method im1 im2 err in
  match r with
  | [xoff; yoff; exoff; eyoff] =>
    let! w := io_wcs W h in
    let '(c1, c2) := match w_cd w with Some (c11, _, _, c22) => (c11, c22) | None => w_cdelt w end in
    let returns := [FNum xoff; FNum yoff; FNum (xoff * c1); FNum (yoff * c2)] in
    let returns := if return_error then returns ++ [FNum exoff; FNum eyoff; FNum (exoff * c1); FNum (eyoff * c2)] else returns in
    let returns := if return_cropped_images then returns ++ [FImg im1; FImg im2] else returns in
    let! returns := (if return_shifted_image then
        let! s := shift2d has_fftw (of_num im2) (- xoff) (- yoff) 0 1 false false true in Ok (returns ++ [FShifted s])
      else Ok returns) in
    Ok (if return_header then returns ++ [FHdr h] else returns)
  | _ => Raise ValueError                                            (* unpacking *)
  end.

(** np.std: NaN if there is a NaN *)
Definition np_std (a : arr num) : num := if any isnan a then NaN else Fin (std (shape a) (fun i => nan0 (get a i))).

(** cross_correlation_shifts.py:213-270 [cross_correlation_shifts_FITS] *)
Definition cross_correlation_shifts_FITS (W : world) (fitsfile1 fitsfile2 : src) (return_cropped_images : bool)
    (sigma_cut : option R) (register_method : arr num -> arr num -> res (list R)) : res (list fitem) :=
  let! h := load_header W fitsfile1 in
  let! image2 := io_reproject W fitsfile2 h in
  let! o1 := load_data W fitsfile1 in
  match o1 with
  | None => Raise AttributeError
  | Some image1 =>
    if negb (same_shape image1 image2) then Raise ValueError else
    let '(c1, c2) := sigma_cut_images (np_std image1) (np_std image2) image1 image2 sigma_cut in
    let! r := register_method c1 c2 in
    match r with
    | [xoff; yoff] =>
      let! w := io_wcs W h in
      (* np.inner([[xoff,0],[0,yoff]], cd)[[0,1],[0,1]] *)
      let '(xw, yw) := match w_cd w with
        | Some (c11, c12, c21, c22) => (xoff * c11 + 0 * c12, 0 * c21 + yoff * c22)
        | None => (0, 0)
        end in
      Ok ([FNum xoff; FNum yoff; FNum xw; FNum yw] ++ (if return_cropped_images then [FImg image1; FImg image2] else []))
    | _ => Raise ValueError
    end
  end.
