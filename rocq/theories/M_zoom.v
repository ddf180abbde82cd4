(** Model of image_registration/fft_tools/zoom.py *)
From Coq Require Import ZArith Lia List Reals Lra Bool.
From Coquelicot Require Import Complex.
From Verif Require Import Base NDim DFT Kernel Py M_fast_ffts M_shift M_scale.
Import ListNotations.
Open Scope R_scope.

(** np.linspace(start, stop, num): element j (external code; num < 0 raises ValueError) *)
Definition linspace_at (start stop : R) (num j : Z) : R :=
  if (num <=? 1)%Z then start else start + IZR j * ((stop - start) / IZR (num - 1)).
Definition linspace (start stop : R) (num : Z) : res (arr R) :=
  if (num <? 0)%Z then Raise ValueError else Ok (mk1 num (linspace_at start stop num)).

(** Python true division by a number: ZeroDivisionError when it is 0 *)
Definition pydiv (x y : R) : res R := if Req_EM_T y 0 then Raise ZeroDivisionError else Ok (x / y).

(** value returned by the zoom functions: (xouts, zoomed) if return_xouts else zoomed *)
Definition zoomres : Type := option (arr R) * anyarr.
Definition with_xouts (return_xouts : bool) (x : arr R) (r : anyarr) : zoomres :=
  ((if return_xouts then Some x else None), r).

(** zoom.py:5-51 [zoom1d] *)
Definition zoom1d (has_fftw : bool) (inp : arr C) (usfac : R) (outsize : option Z) (offset : R)
    (nthreads : Z) (use_numpy_fft return_xouts return_real : bool) : res zoomres :=
  match shape inp with
  | [insize] =>                                                  (* insize, = inp.shape *)
    let outsize := match outsize with None => insize | Some m => m end in
    let middle := (IZR insize - 1) / 2 + offset in
    let! h := pydiv (IZR (outsize - 1)) usfac in
    let! outarr := linspace (middle - h / 2) (middle + h / 2) outsize in
    let! result := fourier_interp1d has_fftw inp outarr None nthreads use_numpy_fft return_real in
    Ok (with_xouts return_xouts outarr result)
  | _ => Raise ValueError
  end.

(** zoom.py:88-101: outarr[ii, ...] for axis ii.  [zip] stops at the shortest list, so an axis without a coordinate
    keeps its zeros. *)
Definition axis_grid (coordinates : list R) (usfac : R) (outsize : Z) (ii : nat) (j : Z) : R :=
  match nth_error coordinates ii with
  | Some target => linspace_at (target - IZR (outsize - 1) / usfac / 2) (target + IZR (outsize - 1) / usfac / 2) outsize j
  | None => 0
  end.

(** zoom.py:87-101 with an outshape of the wrong length.  If it has fewer entries than the data have axes, the first assignment
    of line 101 stores an array of shape (m0, 1, .., 1) into one of lower rank: ValueError unless m0 = 1.  (Negative sizes fail
    before, in np.zeros, and a zero factor in the division.)  Other outshapes of the wrong length are not modelled. *)
Definition wrong_outshape (nd : nat) (coordinates : list R) (usfac : R) (outshape : list Z) : exn :=
  match outshape with
  | m0 :: _ =>
    if Nat.ltb (length outshape) nd && negb (m0 =? 1)%Z && Nat.ltb 0 (length coordinates) then
      if existsb (fun m => (m <? 0)%Z) outshape then ValueError
      else if Req_EM_T usfac 0 then ZeroDivisionError else ValueError
    else Unmodelled
  | [] => Unmodelled
  end.
(** zoom.py:53-119 [zoom_on_pixel] *)
Definition zoom_on_pixel (has_fftw : bool) (inp : arr C) (coordinates : list R) (usfac : R)
    (outshape : option (list Z)) (nthreads : Z) (use_numpy_fft return_real return_xouts : bool) : res zoomres :=
  let inshape := shape inp in
  let outshape := match outshape with None => inshape | Some s => s end in
  if negb (Nat.eqb (length outshape) (length inshape)) then
    Raise (wrong_outshape (length inshape) coordinates usfac outshape)
  else if existsb (fun m => (m <? 0)%Z) outshape then Raise ValueError      (* np.zeros *)
  else
    let! _ := if (Nat.eqb (length (combine inshape coordinates)) 0) then Ok tt
              else (let! _ := pydiv 1 usfac in Ok tt) in
    let grid := fun i => match i with
                         | d :: l => axis_grid coordinates usfac (nth (Z.to_nat d) outshape 0%Z) (Z.to_nat d) (nth (Z.to_nat d) l 0%Z)
                         | [] => 0 end in
    let outarr := Arr (Z.of_nat (length inshape) :: outshape) grid in
    match inshape with
    | [_] =>
      (* outarr.squeeze(): drops all axes of length 1 *)
      let m := nth 0 outshape 0%Z in
      let sq := if (m =? 1)%Z then Arr [] (fun _ => get outarr [0; 0]%Z) else mk1 m (fun j => get outarr [0%Z; j]) in
      let! result := fourier_interp1d has_fftw inp sq None nthreads use_numpy_fft return_real in
      Ok (with_xouts return_xouts outarr result)
    | [_; _] =>
      let! result := fourier_interp2d has_fftw inp (IndArr outarr) nthreads use_numpy_fft return_real in
      Ok (with_xouts return_xouts outarr result)
    | _ => Raise NotImplementedError
    end.

(** zoom.py:121-172 [zoomnd]; [middle_convention] is float (the identity), floor or ceil *)
Definition zoomnd (has_fftw : bool) (inp : arr C) (offsets : list R) (middle_convention : R -> R) (usfac : R)
    (outshape : option (list Z)) (nthreads : Z) (use_numpy_fft return_real return_xouts : bool) : res zoomres :=
  if (Nat.ltb 0 (length offsets)) && negb (Nat.eqb (length offsets) (ndim inp)) then Raise ValueError
  else
    let offsets := if Nat.eqb (length offsets) 0 then repeat 0 (ndim inp) else offsets in
    let middlepix := zipw (fun insize off => middle_convention (IZR (insize - 1) / 2) + off) (shape inp) offsets in
    zoom_on_pixel has_fftw inp middlepix usfac outshape nthreads use_numpy_fft return_real return_xouts.
