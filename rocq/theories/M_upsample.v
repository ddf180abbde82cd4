(** Model of image_registration/fft_tools/upsample.py *)
From Coq Require Import ZArith Lia List Reals Lra Bool.
From Coquelicot Require Import Complex.
From Verif Require Import Base NDim DFT Kernel Num Py M_fast_ffts M_shift.
Import ListNotations.
Open Scope R_scope.

(** numpy.fft.ifftshift of a 1-D array of length n: roll by -(n//2) (external, documented) *)
Definition np_ifftshift {A} (n : Z) (a : Z -> A) : Z -> A := fun k => a ((k + n / 2) mod n)%Z.

(** upsample.py:7-63 [dftups] on a finite complex 2-D array.  Sizes may be floats as accepted by np.arange.
    Lines 47 (unpacking the shape), 49-50, 52-54, 56-58, 61.  [-1j*2*pi/(nr*usfac)] raises for a zero divisor. *)
Definition dftups (inp : arr C) (nor noc : option R) (usfac roff coff : R) : res (arr C) :=
  match shape inp with
  | [nr; nc] =>
    let noc' := match noc with None => IZR nc | Some v => v end in
    let nor' := match nor with None => IZR nr | Some v => v end in
    let term1c := fun l => np_ifftshift nc (fun j => IZR j - IZR (nc / 2)) l / IZR nc in
    let term2c := fun c => (IZR c - coff) / usfac in
    let kernc := fun l c => cis (- (2 * PI) * term1c l * term2c c) in
    let term1r := fun r => IZR r - roff in
    let term2r := fun k => np_ifftshift nr IZR k - IZR (nr / 2) in
    if Req_EM_T (IZR nr * usfac) 0 then Raise ZeroDivisionError else
    let kernr := fun r k => cis (- (2 * PI) / (IZR nr * usfac) * term1r r * term2r k) in
    let dot1 := fun r l => sumC nr (fun k => Cmult (kernr r k) (g2 inp k l)) in
    Ok (mk2 (arange_len nor') (arange_len noc') (fun r c => sumC nc (fun l => Cmult (dot1 r l) (kernc l c))))
  | _ => Raise ValueError
  end.

(** upsample.py:116-148 [odddftups]; lines 126-135 compute values that are never used *)
Definition odddftups (inp : arr C) (nor noc : option R) (usfac roff coff : R) : res (arr C) :=
  match shape inp with
  | [nr; nc] =>
    let noc' := match noc with None => IZR nc | Some v => v end in
    let nor' := match nor with None => IZR nr | Some v => v end in
    let term1c := np_ifftshift nc (fun j => IZR j - IZR (nc / 2)) in
    let term2c := fun c => IZR c - coff in
    if Req_EM_T (IZR nc * usfac) 0 then Raise ZeroDivisionError else
    let kernc := fun l c => cis (- (2 * PI) / (IZR nc * usfac) * term1c l * term2c c) in
    let term1r := fun r => IZR r - roff in
    let term2r := fun k => np_ifftshift nr IZR k - IZR (nr / 2) in
    if Req_EM_T (IZR nr * usfac) 0 then Raise ZeroDivisionError else
    let kernr := fun r k => cis (- (2 * PI) / (IZR nr * usfac) * term1r r * term2r k) in
    let dot1 := fun r l => sumC nr (fun k => Cmult (kernr r k) (g2 inp k l)) in
    Ok (mk2 (arange_len nor') (arange_len noc') (fun r c => sumC nc (fun l => Cmult (dot1 r l) (kernc l c))))
  | _ => Raise ValueError
  end.

(** upsample.py:65-90 [dftups1d] with usfac <> 0 (numpy division by 0 gives nan; not modelled).
    Returns (Some xouts, out) when return_xouts, else (None, out). *)
Definition dftups1d (inp : arr C) (usfac : R) (outsize : option R) (offset : R) (return_xouts : bool)
  : res (option (arr R) * arr C) :=
  match shape inp with
  | [n] =>
    let m := arange_len (match outsize with None => IZR n | Some v => v end) in
    if Z.eqb n 0 then Raise ZeroDivisionError else               (* np.fft.fftfreq(0) *)
    let term2 := fun j => (IZR j + offset) / usfac in
    let kern := fun k j => cis (- (2 * PI) * fftfreq n k * term2 j) in
    let out := mk1 m (fun j => sumC n (fun k => Cmult (g1 inp k) (kern k j))) in
    if return_xouts
    then Ok (Some (if Z.eqb m 1 then Arr [] (fun _ => term2 0%Z) else mk1 m term2), out)   (* .squeeze() *)
    else Ok (None, out)
  | _ => Raise ValueError
  end.

(** output_size argument: None, a sequence, or a number (upsample.py:102-110) *)
Inductive osize := ONone | OSeq (l : list R) | ONum (v : R).

(** upsample.py:93-114 [upsample_image]; image is a finite (real or complex) 2-D array *)
Definition upsample_image (has_fftw : bool) (image : arr C) (upsample_factor : R) (output_size : osize)
    (nthreads : Z) (use_numpy_fft : bool) (xshift yshift : R) : res (arr C) :=
  let '(_, ifftn) := get_ffts has_fftw nthreads use_numpy_fft in
  let! _ := check_fft (shape image) in
  let imfft := ifftn image in
  let! s := match output_size with
            | ONone => match shape image with
                       | n1 :: n2 :: _ => Ok (IZR n1 * upsample_factor, IZR n2 * upsample_factor)
                       | _ => Raise IndexError
                       end
            | OSeq l => match l with s1 :: s2 :: _ => Ok (s1, s2) | _ => Raise IndexError end
            | ONum v => Ok (v, v)
            end in
  dftups imfft (Some (fst s)) (Some (snd s)) upsample_factor yshift xshift.
