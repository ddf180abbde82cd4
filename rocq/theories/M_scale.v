(** Model of image_registration/fft_tools/scale.py *)
From Coq Require Import ZArith Lia List Reals Lra Bool.
From Coquelicot Require Import Complex.
From Verif Require Import Base NDim DFT Kernel Py M_fast_ffts M_shift.
Import ListNotations.
Open Scope R_scope.

(** np.interp(x, xp, fp) for one x (external code, documented behaviour on increasing xp):
    clamps outside, linear between the neighbouring nodes.  [bracket] is the largest j < n with xp[j] <= x, or -1. *)
Fixpoint bracket (n : nat) (xp : Z -> R) (x : R) : Z :=
  match n with
  | O => (-1)%Z
  | S m => if Rle_dec (xp (Z.of_nat m)) x then Z.of_nat m else bracket m xp x
  end.
Definition np_interp (n : Z) (xp fp : Z -> R) (x : R) : R :=
  let j := bracket (Z.to_nat n) xp x in
  if (j <? 0)%Z then fp 0%Z
  else if (j =? n - 1)%Z then fp j
  else fp j + (fp (j + 1)%Z - fp j) / (xp (j + 1)%Z - xp j) * (x - xp j).

Definition pick_real (return_real : bool) (r : arr C) : anyarr :=
  if return_real then RealArr (amap Re r) else CplxArr r.

(** scale.py:4-65 [fourier_interp1d].  Data is 1-D (docstring); other ranks are not modelled.
    Finite data only (a NaN anywhere makes every output NaN).  Lines 41, 43-45, 47-53, 56, 60, 62-65. *)
Definition fourier_interp1d (has_fftw : bool) (data : arr C) (out_x : arr R) (data_x : option (arr R))
    (nthreads : Z) (use_numpy_fft return_real : bool) : res anyarr :=
  let '(_, ifftn) := get_ffts has_fftw nthreads use_numpy_fft in
  match shape data with
  | [n] =>
    let! _ := check_freqs [n] in
    match shape out_x with
    | [m] =>
      let! outinds :=
        match data_x with
        | Some dx => if list_eq_dec Z.eq_dec (shape dx) (shape data)
                     then Ok (fun j => np_interp n (g1 dx) IZR (g1 out_x j))
                     else Raise ValueError
        | None => Ok (g1 out_x)
        end in
      let kern := fun k j => cis (- (2 * PI) * fftfreq n k * outinds j) in
      let! _ := check_fft [n] in
      let im := ifftn data in
      Ok (pick_real return_real (mk1 m (fun j => sumC n (fun k => Cmult (g1 im k) (kern k j)))))
    | _ => Raise ValueError                                    (* out_x.ndim != 1 *)
    end
  | _ => Raise Unmodelled
  end.

(** the two accepted forms of [outinds] (scale.py:79-80): an ndarray, or a sequence of 1-D sequences *)
Inductive indspec := IndArr (a : arr R) | IndSeq (l : list (list R)).
Definition indspec_len (o : indspec) : Z :=
  match o with IndArr a => nth 0 (shape a) 0%Z | IndSeq l => Z.of_nat (length l) end.

(** np.array(list): 1-D array of a Python list *)
Definition arr_of_list (l : list R) : arr R := mk1 (Z.of_nat (length l)) (fun j => nth (Z.to_nat j) l 0).

(** scale.py:86-89: validation of [outinds] against data.ndim *)
Definition check_outinds (nd : nat) (o : indspec) : res unit :=
  match o with
  | IndArr a => if negb (Nat.eqb (ndim a) (nd + 1)) && negb (Nat.eqb (ndim a) nd) then Raise ValueError
                else if negb (Z.eqb (indspec_len o) (Z.of_nat nd)) then Raise ValueError else Ok tt
  | IndSeq _ => if negb (Z.eqb (indspec_len o) (Z.of_nat nd)) then Raise ValueError else Ok tt
  end.

(** scale.py:94-98 and 102-106: the 1-D coordinate vector used for axis 0 / axis 1 of 2-D data *)
Definition axis_coords (o : indspec) (axis : Z) : res (arr R) :=
  match o with
  | IndArr a =>
    match shape a with
    | [_; p; q] =>                                              (* ndim == 3: extract a line *)
      if Z.eqb axis 0
      then if Z.leb q 0 then Raise IndexError else Ok (mk1 p (fun i => get a [0; i; 0]%Z))
      else if Z.leb p 0 then Raise IndexError else Ok (mk1 q (fun j => get a [1; 0; j]%Z))
    | [_; m] => Ok (mk1 m (fun i => get a [axis; i]))
    | _ => Raise Unmodelled
    end
  | IndSeq l => Ok (arr_of_list (nth (Z.to_nat axis) l []))
  end.

(** scale.py:67-114 [fourier_interp2d]; np.dot(np.dot(kerny, imfft), kernx) *)
Definition fourier_interp2d (has_fftw : bool) (data : arr C) (outinds : indspec)
    (nthreads : Z) (use_numpy_fft return_real : bool) : res anyarr :=
  let '(_, ifftn) := get_ffts has_fftw nthreads use_numpy_fft in
  let! _ := check_outinds (ndim data) outinds in
  match shape data with
  | [ny; nx] =>
    let! _ := check_fft [ny; nx] in
    let imfft := ifftn data in
    let! ys := axis_coords outinds 0 in
    let kerny := fun i k => cis (- (2 * PI) * (fftfreq ny k * g1 ys i)) in
    let! xs := axis_coords outinds 1 in
    let kernx := fun l j => cis (- (2 * PI) * (fftfreq nx l * g1 xs j)) in
    let dot1 := fun i l => sumC ny (fun k => Cmult (kerny i k) (g2 imfft k l)) in
    Ok (pick_real return_real
          (mk2 (nth 0 (shape ys) 0%Z) (nth 0 (shape xs) 0%Z)
               (fun i j => sumC nx (fun l => Cmult (dot1 i l) (kernx l j)))))
  | _ => Raise Unmodelled
  end.
