(** Model of image_registration/iterative_zoom.py and of chi2_shift_iterzoom (chi2_shifts.py:309-432) *)
From Coq Require Import ZArith Lia List Reals Lra Bool.
From Coquelicot Require Import Complex.
From Verif Require Import Base NDim DFT Kernel Num Py M_fast_ffts M_shift M_scale M_zoom M_downsample M_convolve M_correlate Arg M_chi2.
Import ListNotations.
Open Scope R_scope.

(** the [minmax] argument: np.min or np.max *)
Inductive minmax := MMin | MMax.

(** An image together with its coordinate arrays (xaxzoom), as the list in C order of (coordinates, value).  Both
    functions of iterative_zoom.py only use the image through np.argmin/argmax, np.min/max and element-wise tests, so
    this representation serves 1-D and 2-D images alike. *)
Definition view := list (list R * R).
Definition better (mm : minmax) (a b : R) : bool :=
  match mm with MMin => if Rlt_dec a b then true else false | MMax => if Rlt_dec b a then true else false end.
(** np.unravel_index(argminmax(image)): the first extremal sample; None if the image is empty *)
Definition extremum (mm : minmax) (v : view) : option (list R * R) :=
  match v with
  | [] => None
  | p :: t => Some (fold_left (fun best q => if better mm (snd q) (snd best) then q else best) t p)
  end.
(** |delta_image|, the absolute differences from the extreme value *)
Definition abs_deltas (m : R) (v : view) : list R := map (fun p => Rabs (snd p - m)) v.
Definition nonzero (x : R) : bool := if Rlt_dec 0 x then true else false.
(** np.abs(delta_image[np.abs(delta_image)>0]).min(): ValueError if there is none *)
Definition smallest_nonzero (m : R) (v : view) : res R := lmin (filter nonzero (abs_deltas m v)).

(** what is known when the loop is left: image_zoom, zf, center (None: never assigned), offset *)
Definition zstate : Type := view * R * option (list R) * list R.

(** iterative_zoom.py:70-85 (= 168-190): the while loop.  [mid] is (image.shape[d]-1)/2 per axis and [zoom] the call of
    zoom_on_pixel(image, center, usfac=zf, outshape=zoomshape, return_xouts=True) (line 77 = 175).
    [fuel] bounds the number of evaluations of the loop condition; None: more are needed.
    Printing (verbose) and plotting (ploteach) are omitted. *)
Fixpoint zloop (fuel : nat) (mm : minmax) (mindiff zoomstep : R) (mid : list R) (zoom : list R -> R -> res view)
    (v : view) (zf : R) (center : option (list R)) (offset : list R) : option (res zstate) :=
  match fuel with
  | O => None
  | S fuel =>
    match extremum mm v with
    | None => Some (Raise ValueError)
    | Some best =>
      match smallest_nonzero (snd best) v with
      | Raise e => Some (Raise e)
      | Ok d =>
        if Rlt_dec mindiff d then
          let center' := fst best in
          let offset' := zipw Rminus center' mid in
          let zf' := zf * zoomstep in
          match zoom center' zf' with
          | Raise e => Some (Raise e)
          | Ok v' =>
            match extremum mm v' with
            | None => Some (Raise ValueError)
            | Some best' =>
              if forallb (fun x => negb (nonzero x)) (abs_deltas (snd best') v')     (* np.all(delta_image == 0): break *)
              then Some (Ok (v', zf', Some center', offset'))
              else zloop fuel mm mindiff zoomstep mid zoom v' zf' (Some center') offset'
            end
          end
        else Some (Ok (v, zf, center, offset))
      end
    end
  end.

(** iterative_zoom.py:108-117 (= 192-200): the returned value *)
Inductive zoomout := ZResult (r : list R) | ZZoomed (image : view) (zf : R) (r : list R).
Definition zresult (return_zoomed return_center : bool) (s : zstate) : res zoomout :=
  let '(v, zf, center, offset) := s in
  let! r := if return_center then match center with Some c => Ok c | None => Raise UnboundLocalError end else Ok offset in
  Ok (if return_zoomed then ZZoomed v zf r else ZResult r).

(** samples of a 2-D array and its coordinate arrays *)
Definition view2 (my mx : Z) (xs : arr R) (r : Z -> Z -> R) : view :=
  map (fun p => ([get xs [0%Z; fst p; snd p]; get xs [1%Z; fst p; snd p]], r (fst p) (snd p))) (pixels my mx).
Definition view_of_zoom2 (z : zoomres) : res view :=
  match z with
  | (Some xs, RealArr r) => match shape r with [my; mx] => Ok (view2 my mx xs (g2 r)) | _ => Raise Unmodelled end
  | _ => Raise Unmodelled
  end.
Definition has_nan (sh : list Z) (a : arr num) : bool := existsN sh (fun i => isnan (get a i)).

(** index tuples of an array in C order *)
Fixpoint all_indices (sh : list Z) : list (list Z) :=
  match sh with [] => [[]] | n :: t => flat_map (fun i => map (cons i) (all_indices t)) (zrange n) end.
(** iterative_zoom.py:70-85 for an image that is not 2-D: xaxzoom[1] (line 72) is out of range for a 1-D image (IndexError);
    for three or more axes the centre has two coordinates only and zoom_on_pixel raises (it never returns such images). *)
Definition zoom_other (has_fftw : bool) (image : arr num) (zoomshape : list Z) (center : list R) (zf : R) : res view :=
  match shape image with
  | [_] => Raise IndexError
  | sh => let! _ := zoom_on_pixel has_fftw (Arr sh (fun i => RtoC (nan0 (get image i)))) center zf (Some zoomshape) 1 false true true in
          Raise Unmodelled
  end.

(** iterative_zoom.py:5-117 [iterative_zoom].  A NaN anywhere makes every difference NaN, so that the selection of line 70
    is empty and min() raises ValueError. *)
Definition iterative_zoom (has_fftw : bool) (fuel : nat) (image : arr num) (mindiff : R) (zoomshape : list Z)
    (return_zoomed : bool) (zoomstep : R) (mm : minmax) (return_center : bool) : option (res zoomout) :=
  match shape image with
  | [ny; nx] =>
    if (ny <=? 0)%Z || (nx <=? 0)%Z then Some (Raise ValueError) else                  (* np.min of an empty array *)
    if has_nan [ny; nx] image then Some (Raise ValueError) else
    let data := Arr [ny; nx] (fun i => RtoC (nan0 (get image i))) in
    let indices := Arr [2; ny; nx]%Z (fun i => match i with [0%Z; y; _] => IZR y | [1%Z; _; x] => IZR x | _ => 0 end) in
    let zoom := fun center zf =>
      let! z := zoom_on_pixel has_fftw data center zf (Some zoomshape) 1 false true true in view_of_zoom2 z in
    let mid := [IZR (ny - 1) / 2; IZR (nx - 1) / 2] in
    match zloop fuel mm mindiff zoomstep mid zoom (view2 ny nx indices (fun y x => nan0 (get image [y; x]))) 1 None [0; 0] with
    | None => None
    | Some (Raise e) => Some (Raise e)
    | Some (Ok s) => Some (zresult return_zoomed return_center s)
    end
  | sh =>
    if negb (pos_shapeb sh) then Some (Raise ValueError) else
    if has_nan sh image then Some (Raise ValueError) else
    let v := map (fun i => (map IZR (firstn 2 i), nan0 (get image i))) (all_indices sh) in
    let mid := map (fun n => IZR (n - 1) / 2) (firstn 2 sh) in
    match zloop fuel mm mindiff zoomstep mid (zoom_other has_fftw image zoomshape) v 1 None (repeat 0 (length sh)) with
    | None => None
    | Some (Raise e) => Some (Raise e)
    | Some (Ok s) => Some (zresult return_zoomed return_center s)
    end
  end.

(** samples of a 1-D array; the coordinate array has shape (1, m) *)
Definition view1 (m : Z) (x : Z -> R) (r : Z -> R) : view := map (fun j => ([x j], r j)) (zrange m).
Definition view_of_zoom1 (z : zoomres) : res view :=
  match z with
  | (Some xs, RealArr r) => match shape r with [m] => Ok (view1 m (fun j => get xs [0%Z; j]) (g1 r)) | _ => Raise Unmodelled end
  | _ => Raise Unmodelled
  end.
(** iterative_zoom.py:169-190 for data that are not 1-D: positions are indices into the flattened data (np.arange(data.size),
    np.argmin).  zoom_on_pixel raises, except for 2-D data with a zoomshape that suits them, which is not modelled. *)
Definition flat_view (sh : list Z) (f : list Z -> R) : view :=
  map (fun p => ([IZR (fst p)], f (snd p))) (combine (zrange (prodZ sh)) (all_indices sh)).
Definition zoom_other_1d (has_fftw : bool) (data : arr num) (zoomshape : list Z) (center : list R) (zf : R) : res view :=
  let! _ := zoom_on_pixel has_fftw (Arr (shape data) (fun i => RtoC (nan0 (get data i)))) center zf (Some zoomshape) 1 false true true in
  Raise Unmodelled.

(** iterative_zoom.py:125-208 [iterative_zoom_1d].  When the loop body is never entered the offset is the number 0., not
    a tuple; both are represented by [0]. *)
Definition iterative_zoom_1d (has_fftw : bool) (fuel : nat) (data : arr num) (mindiff : R) (zoomshape : list Z)
    (return_zoomed : bool) (zoomstep : R) (mm : minmax) (return_center : bool) : option (res zoomout) :=
  match shape data with
  | [n] =>
    if (n <=? 0)%Z then Some (Raise ValueError) else
    if has_nan [n] data then Some (Raise ValueError) else
    let inp := Arr [n] (fun i => RtoC (nan0 (get data i))) in
    let zoom := fun center zf =>
      let! z := zoom_on_pixel has_fftw inp center zf (Some zoomshape) 1 false true true in view_of_zoom1 z in
    match zloop fuel mm mindiff zoomstep [IZR (n - 1) / 2] zoom (view1 n IZR (fun x => nan0 (get data [x]))) 1 None [0] with
    | None => None
    | Some (Raise e) => Some (Raise e)
    | Some (Ok s) => Some (zresult return_zoomed return_center s)
    end
  | sh =>
    if negb (pos_shapeb sh) then Some (Raise ValueError) else
    if has_nan sh data then Some (Raise ValueError) else
    let v := flat_view sh (fun i => nan0 (get data i)) in
    match zloop fuel mm mindiff zoomstep [IZR (prodZ sh - 1) / 2] (zoom_other_1d has_fftw data zoomshape) v 1 None [0] with
    | None => None
    | Some (Raise e) => Some (Raise e)
    | Some (Ok s) => Some (zresult return_zoomed return_center s)
    end
  end.

(** iterative_zoom.py:119-122 (= 210-213) [centers_to_edges] on a list; IndexError if it has fewer than two entries *)
Definition centers_to_edges (l : list R) : res (arr R) :=
  match l with
  | a :: b :: _ =>
    let dx := b - a in
    let! lo := lmin l in
    let! hi := lmax l in
    linspace (lo - dx / 2) (hi + dx / 2) (Z.of_nat (length l) + 1)
  | _ => Raise IndexError
  end.

(** chi2_shifts.py:309-432 [chi2_shift_iterzoom] without extra keyword arguments.  [allow_huge] on line 399 is neither a
    parameter nor a local name, so it is looked up in the module's globals: [None] (there is none) is the code as it stands;
    [Some b] is the code with such a global defined.  The iteration parameters zoomstep=2, minmax=np.min are the defaults. *)
Definition chi2_shift_iterzoom (e : env) (allow_huge_global : option bool) (fuel : nat) (im1 im2 : arr num) (err : errarg)
    (b : boundary) (nthreads : Z) (use_numpy_fft zeromean return_error return_chi2array : bool)
    (zoom_shape rezoom_shape : list Z) (rezoom_factor mindiff : R) : option (res (list retval)) :=
  match allow_huge_global with
  | None => Some (Raise NameError)
  | Some allow_huge =>
    match chi2n_map e im1 im2 err b nthreads zeromean use_numpy_fft true false allow_huge with
    | Raise x => Some (Raise x)
    | Ok (Chi2Only _) => Some (Raise ValueError)
    | Ok (Chi2All chi2 _ _ _) =>
      match iterative_zoom (e_fftw e) fuel (Arr (shape chi2) (fun i => Fin (get chi2 i))) mindiff zoom_shape true 2 MMin false with
      | None => None
      | Some (Raise x) => Some (Raise x)
      | Some (Ok (ZResult _)) => Some (Raise ValueError)
      | Some (Ok (ZZoomed v zf offsets)) =>
        let allzero := forallb (fun p => if Req_EM_T (snd p) 0 then true else false) v in
        Some (
          let! z := zoomnd (e_fftw e) (RtoCa chi2) offsets (fun x => IZR (floorR x)) (if allzero then zf else zf * rezoom_factor)
                      (Some rezoom_shape) 1 false true true in
          match z with
          | (Some xs, RealArr rez) =>
            let! errs := (if return_error then
                            let! er := chi2map_to_errors e rez (zf * rezoom_factor) 1 2 in
                            let '(a1, a2, b1, b2) := er in Ok [RNum ((a1 + a2) / 2); RNum ((b1 + b2) / 2)]
                          else Ok []) in
            let coords := fun d k => Arr (shape rez) (fun i => IZR (nth d (shape chi2) 0%Z - 1) / 2 - get xs (k :: i)) in
            Ok (map (fun o => RNum (- o)) (rev offsets) ++ errs ++
                (if return_chi2array then [RMaps (coords 1%nat 1%Z) (coords 0%nat 0%Z) rez] else []))
          | _ => Raise Unmodelled
          end)
      end
    end
  end.
