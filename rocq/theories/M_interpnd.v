(** Model of fourier_interpnd (image_registration/fft_tools/scale.py:118-176) *)
From Coq Require Import ZArith Lia List Reals Lra Bool.
From Coquelicot Require Import Complex.
From Verif Require Import Base NDim DFT Kernel Py M_fast_ffts M_shift M_scale.
Import ListNotations.
Open Scope R_scope.

(** scale.py:157-161 for dimension [dim] of 2-D data: np.array(outinds[dim]), or the line of an np.indices-like array
    ([dim] + [0]*dim + [slice(None)] + [0]*(ndim-1-dim)); the same vectors as in fourier_interp2d *)
Definition nd_coords (o : indspec) (dim : Z) : res (arr R) := axis_coords o dim.

(** scale.py:118-176 [fourier_interpnd].  [list_index_ok]: a list of slices is accepted as an index (numpy < 1.23), otherwise
    freq[freqdims] (159, 162) raises IndexError.
    2-D data: dim = 0 has kern of shape (ny, my) and result.swapaxes(0,-1) of shape (nx, ny); dim = 1 has kern of shape
    (mx, nx), swapped to (nx, mx).
    1-D data: freq*inds is elementwise; np.dot of two vectors is a scalar, whose swapaxes(0,-1) raises numpy's AxisError
    (a ValueError); lengths that do not fit raise ValueError before; a 1-D outinds array has a 0-d entry, and
    indexing that with [slice(None)] raises IndexError.
    More dimensions: kern has shape (n0, 1, .., m) and np.dot contracts n0 with the axis of length 1: ValueError.  For an
    np.indices-like array (rank ndim+1) the line outinds[0, :, 0, .., 0] is extracted first: IndexError if one of its other
    axes is empty.  Not modelled: n0 = 1, and an index array of rank ndim. *)
Definition fourier_interpnd (list_index_ok has_fftw : bool) (data : arr C) (outinds : indspec)
    (nthreads : Z) (use_numpy_fft return_real : bool) : res anyarr :=
  let '(_, ifftn) := get_ffts has_fftw nthreads use_numpy_fft in
  let! _ := check_outinds (ndim data) outinds in
  let! _ := check_fft (shape data) in
  let imfft := ifftn data in
  match shape data with
  | [] => Raise Unmodelled
  | [n] =>
    if negb list_index_ok then Raise IndexError else
    match outinds with
    | IndArr a => if Nat.eqb (ndim a) 1 then Raise IndexError else Raise ValueError
    | IndSeq _ => Raise ValueError
    end
  | [ny; nx] =>
    if negb list_index_ok then Raise IndexError else
    let! ys := nd_coords outinds 0 in
    let kern0 := fun k i => cis (- (2 * PI) * (fftfreq ny k * g1 ys i)) in
    let my := nth 0 (shape ys) 0%Z in
    (* np.dot((nx,ny), (ny,my)).swapaxes(0,-1) *)
    let res0 := fun i l => sumC ny (fun k => Cmult (g2 imfft k l) (kern0 k i)) in
    let! xs := nd_coords outinds 1 in
    let kern1 := fun l j => cis (- (2 * PI) * (fftfreq nx l * g1 xs j)) in
    let mx := nth 0 (shape xs) 0%Z in
    Ok (pick_real return_real (mk2 my mx (fun i j => sumC nx (fun l => Cmult (res0 i l) (kern1 l j)))))
  | n0 :: _ =>
    if negb list_index_ok then Raise IndexError else
    match outinds with
    | IndSeq _ => if (n0 =? 1)%Z then Raise Unmodelled else Raise ValueError
    | IndArr a =>
      if negb (Nat.eqb (ndim a) (ndim data + 1)) then Raise Unmodelled else
      if negb (pos_shapeb (skipn 2 (shape a))) then Raise IndexError else
      if (n0 =? 1)%Z then Raise Unmodelled else Raise ValueError
    end
  end.
