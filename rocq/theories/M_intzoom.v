(** Model of iterative_zoom and iterative_zoom_1d (image_registration/iterative_zoom.py) for images of an integer dtype.  Zooming converts to float
    (it transforms the image), so only the differences of lines 54 and 70 (= 161, 165), which are computed before the first zoom, stay in the dtype
    of the image. *)
From Coq Require Import ZArith Lia List Reals Lra Bool.
From Coquelicot Require Import Complex.
From Verif Require Import Base NDim DFT Kernel Num Py M_fast_ffts M_shift M_scale M_zoom M_downsample M_convolve M_correlate Arg M_chi2 M_intdtype M_iterzoom.
Import ListNotations.
Open Scope R_scope.

(** iterative_zoom.py:54, 70 (= 161, 165): np.abs(delta_image[np.abs(delta_image)>0]).min() with delta_image = image - minmax(image), where subtraction and
    absolute value wrap round in the dtype; ValueError if nothing is selected *)
Definition int_extreme (mm : minmax) (z : Z) (t : list Z) : Z := fold_left (match mm with MMin => Z.min | MMax => Z.max end) t z.
Definition int_delta (dt : idtype) (m v : Z) : Z := wrapZ dt (Z.abs (wrapZ dt (v - m))).
Definition int_gap (dt : idtype) (mm : minmax) (vals : list Z) : res R :=
  match vals with
  | [] => Raise ValueError
  | z :: t => lmin (map IZR (filter (fun d => (0 <? d)%Z) (map (int_delta dt (int_extreme mm z t)) vals)))
  end.

(** iterative_zoom.py:70-85 (= 165-190): the while loop, with the smallest non-zero difference of its first evaluation given *)
Definition zloop_first (gap : res R) (fuel : nat) (mm : minmax) (mindiff zoomstep : R) (mid : list R) (zoom : list R -> R -> res view)
    (v : view) (offset : list R) : option (res zstate) :=
  match fuel with
  | O => None
  | S fuel =>
    match extremum mm v with
    | None => Some (Raise ValueError)
    | Some best =>
      match gap with
      | Raise e => Some (Raise e)
      | Ok d =>
        if Rlt_dec mindiff d then
          let center' := fst best in
          let offset' := zipw Rminus center' mid in
          let zf' := 1 * zoomstep in
          match zoom center' zf' with
          | Raise e => Some (Raise e)
          | Ok v' =>
            match extremum mm v' with
            | None => Some (Raise ValueError)
            | Some best' =>
              if forallb (fun x => negb (nonzero x)) (abs_deltas (snd best') v')
              then Some (Ok (v', zf', Some center', offset'))
              else zloop fuel mm mindiff zoomstep mid zoom v' zf' (Some center') offset'
            end
          end
        else Some (Ok (v, 1, None, offset))
      end
    end
  end.

(** iterative_zoom.py:5-117 [iterative_zoom] for an integer image (see M_iterzoom for the parts that are the same).  If no zoom takes place and
    return_zoomed is set, the returned image is the integer image itself, represented by its values. *)
Definition iterative_zoom_int (dt : idtype) (has_fftw : bool) (fuel : nat) (image : arr Z) (mindiff : R) (zoomshape : list Z)
    (return_zoomed : bool) (zoomstep : R) (mm : minmax) (return_center : bool) : option (res zoomout) :=
  let gap := int_gap dt mm (map (get image) (all_indices (shape image))) in
  match shape image with
  | [ny; nx] =>
    if (ny <=? 0)%Z || (nx <=? 0)%Z then Some (Raise ValueError) else
    let data := Arr [ny; nx] (fun i => RtoC (IZR (get image i))) in
    let indices := Arr [2; ny; nx]%Z (fun i => match i with [0%Z; y; _] => IZR y | [1%Z; _; x] => IZR x | _ => 0 end) in
    let zoom := fun center zf =>
      let! z := zoom_on_pixel has_fftw data center zf (Some zoomshape) 1 false true true in view_of_zoom2 z in
    let mid := [IZR (ny - 1) / 2; IZR (nx - 1) / 2] in
    match zloop_first gap fuel mm mindiff zoomstep mid zoom (view2 ny nx indices (fun y x => IZR (get image [y; x]))) [0; 0] with
    | None => None
    | Some (Raise e) => Some (Raise e)
    | Some (Ok s) => Some (zresult return_zoomed return_center s)
    end
  | sh =>
    if negb (pos_shapeb sh) then Some (Raise ValueError) else
    let v := map (fun i => (map IZR (firstn 2 i), IZR (get image i))) (all_indices sh) in
    let mid := map (fun n => IZR (n - 1) / 2) (firstn 2 sh) in
    match zloop_first gap fuel mm mindiff zoomstep mid (zoom_other has_fftw (as_float image) zoomshape) v (repeat 0 (length sh)) with
    | None => None
    | Some (Raise e) => Some (Raise e)
    | Some (Ok s) => Some (zresult return_zoomed return_center s)
    end
  end.

(** iterative_zoom.py:125-208 [iterative_zoom_1d] for integer data *)
Definition iterative_zoom_1d_int (dt : idtype) (has_fftw : bool) (fuel : nat) (data : arr Z) (mindiff : R) (zoomshape : list Z)
    (return_zoomed : bool) (zoomstep : R) (mm : minmax) (return_center : bool) : option (res zoomout) :=
  let gap := int_gap dt mm (map (get data) (all_indices (shape data))) in
  match shape data with
  | [n] =>
    if (n <=? 0)%Z then Some (Raise ValueError) else
    let inp := Arr [n] (fun i => RtoC (IZR (get data i))) in
    let zoom := fun center zf =>
      let! z := zoom_on_pixel has_fftw inp center zf (Some zoomshape) 1 false true true in view_of_zoom1 z in
    match zloop_first gap fuel mm mindiff zoomstep [IZR (n - 1) / 2] zoom (view1 n IZR (fun x => IZR (get data [x]))) [0] with
    | None => None
    | Some (Raise e) => Some (Raise e)
    | Some (Ok s) => Some (zresult return_zoomed return_center s)
    end
  | sh =>
    if negb (pos_shapeb sh) then Some (Raise ValueError) else
    let v := flat_view sh (fun i => IZR (get data i)) in
    match zloop_first gap fuel mm mindiff zoomstep [IZR (prodZ sh - 1) / 2] (zoom_other_1d has_fftw (as_float data) zoomshape) v [0] with
    | None => None
    | Some (Raise e) => Some (Raise e)
    | Some (Ok s) => Some (zresult return_zoomed return_center s)
    end
  end.
