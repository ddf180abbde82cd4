(** Model of image_registration/fft_tools/convolve_nd.py *)
From Coq Require Import ZArith Lia List Reals Lra Bool.
From Coquelicot Require Import Complex.
From Verif Require Import Base NDim DFT Kernel Py M_fast_ffts M_shift.
Import ListNotations.
Open Scope R_scope.

(** [boundary] argument: None, 'fill', 'wrap', 'extend', or any other value (no branch taken, lines 212-227) *)
Inductive boundary := BNone | BFill | BWrap | BExtend | BOther.
(** [normalize_kernel]: falsy, True, or a function of the kernel *)
Inductive normk := NkFalse | NkTrue | NkFun (f : arr C -> C).

Inductive convres := ConvFFT (a : arr C) | ConvReal (a : arr num).

Definition Ceqb (z w : C) : bool :=
  if Req_EM_T (Re z) (Re w) then if Req_EM_T (Im z) (Im w) then true else false else false.

(** convolve_nd.py:188-191: a complex pixel with a NaN component is replaced by 0 *)
Definition nan_zeroed (a : arr cnum) : arr C := amap (fun z => if cisnan z then RtoC 0 else cnan0 z) a.

(** convolve_nd.py:237-253 [newshape]; 2**ceil(log2(m)) with m the largest entry *)
Definition pow2ceil (m : Z) : Z := if (m <=? 0)%Z then 0%Z else (2 ^ Z.log2_up m)%Z.
Definition maxl (l : list Z) : Z := fold_right Z.max 0%Z l.
Definition newshape (fft_pad psf_pad : bool) (ash ksh : list Z) : list Z :=
  if fft_pad then
    let fsize := if psf_pad then pow2ceil (maxl (addl ash ksh)) else pow2ceil (maxl (ash ++ ksh)) in
    map (fun _ => fsize) ash
  else if psf_pad then addl ash ksh else zipw Z.max ash ksh.

(** convolve_nd.py:260-265: first index of the slice of length n centred in an axis of length N:
    center - n//2 with center = N - (N+1)//2 *)
Definition slice_start (N n : Z) : Z := (N - (N + 1) / 2 - n / 2)%Z.
Definition starts (N n : list Z) : list Z := zipw slice_start N n.

(** big[slices] = small, over a background value *)
Definition embed {A} (N n : list Z) (small : list Z -> A) (bg : A) : list Z -> A :=
  fun i => if inbb n (subl i (starts N n)) then small (subl i (starts N n)) else bg.
(** big[slices] *)
Definition crop_to {A} (N n : list Z) (big : list Z -> A) : arr A :=
  Arr n (fun i => big (addl i (starts N n))).
(** numpy.fft.ifftshift / fftshift over all axes (external, documented): rolls by -(N//2) / N//2 *)
Definition ifftshiftN {A} (N : list Z) (a : list Z -> A) : list Z -> A :=
  fun i => a (modl N (addl i (map (fun n => (n / 2)%Z) N))).
Definition fftshiftN {A} (N : list Z) (a : list Z -> A) : list Z -> A :=
  fun i => a (modl N (subl i (map (fun n => (n / 2)%Z) N))).

(** one pixel of lines 315-320: divide by the weight, NaN below min_wt, 0 for zero weight when min_wt = 0.
    (With min_wt < 0 and weight 0 numpy gives nan or inf; modelled as NaN.) *)
Definition reweight (min_wt : R) (z : C) (w : R) : num :=
  if Rlt_dec w min_wt then NaN
  else if Req_EM_T w 0 then (if Req_EM_T min_wt 0 then Fin 0 else NaN)
  else Fin (Re z / w).

(** convolve_nd.py:38-328 [convolvend].
    [np_complex_ok]: np.complex exists (numpy < 1.24), otherwise line 148 raises AttributeError;
    [list_index_ok]: a list of slices is accepted as an index (numpy < 1.23), otherwise line 269 raises IndexError.
    Masked arrays: np.asarray (148-149) discards masks, so lines 165-172 never run.
    A normalised kernel that sums to zero makes the smoothed weights 0/0 = NaN inside the image (285-293).
    A zero normalisation (198, 203) makes the kernel non-finite, which line 296 turns into ValueError. *)
Definition convolvend (has_fftw np_complex_ok list_index_ok : bool) (array kernel : arr cnum)
    (b : boundary) (fill_value : num) (crop return_fft fftshift fft_pad psf_pad interpolate_nan ignore_edge_zeros : bool)
    (min_wt : R) (normalize_kernel : normk) (use_numpy_fft : bool) (nthreads : Z) : res convres :=
  if negb np_complex_ok then Raise AttributeError else
  if negb (Nat.eqb (ndim array) (ndim kernel)) then Raise PlainException else
  let '(fftn, ifftn) := get_ffts has_fftw nthreads use_numpy_fft in
  let nanmask := fun i => cisnan (get array i) in
  let a0 := nan_zeroed array in
  let k0 := nan_zeroed kernel in
  let ksum0 := sumNC (shape k0) (get k0) in
  let '(kern, normalized) :=
    match normalize_kernel with
    | NkTrue => (if Ceqb ksum0 (RtoC 0) then None else Some (amap (fun z => Cdiv z ksum0) k0), true)
    | NkFun f => (if Ceqb (f k0) (RtoC 0) then None else Some (amap (fun z => Cdiv z (f k0)) k0), true)
    | NkFalse => (Some k0, if Rlt_dec (Cmod (Cminus ksum0 (RtoC 1))) (/ 10 ^ 8) then true else false)
    end in
  let! pads := match b with
    | BNone | BFill => Ok (fft_pad, true, fill_value)
    | BWrap => Ok (false, false, Fin 0)
    | BExtend => Raise NotImplementedError
    | BOther => Ok (fft_pad, psf_pad, fill_value)
    end in
  let '(fpad, ppad, fill) := pads in
  let ash := shape array in
  let ksh := shape kernel in
  if fpad && Nat.eqb (length ash) 0 then Raise ValueError else      (* np.max of an empty array *)
  let N := newshape fpad ppad ash ksh in
  if negb list_index_ok then Raise IndexError else
  let! _ := check_fft N in
  match kern with
  | None => Raise ValueError
  | Some kern =>
    if isnan fill && existsN N (fun i => negb (inbb ash (subl i (starts N ash)))) then Raise ValueError else
    let bigarray := Arr N (embed N ash (get a0) (RtoC (nan0 fill))) in
    let bigkernel := Arr N (embed N ksh (get kern) (RtoC 0)) in
    let arrayfft := fftn bigarray in
    let kernfft := fftn (Arr N (ifftshiftN N (get bigkernel))) in
    let fftmult := Arr N (fun k => Cmult (get arrayfft k) (get kernfft k)) in
    let reweighting := interpolate_nan || ignore_edge_zeros in
    let ks := sumNC (shape kern) (get kern) in
    let wt0 := embed N ash (fun i => if nanmask i && interpolate_nan then RtoC 0 else RtoC 1)
                     (if ignore_edge_zeros then RtoC 0 else RtoC 1) in
    let wtfft := fftn (Arr N wt0) in
    let wtsm := ifftn (Arr N (fun k => Cdiv (Cmult (get wtfft k) (get kernfft k)) ks)) in
    let bigimwt := fun i => Rmax 0 (if inbb ash (subl i (starts N ash)) then Re (get wtsm i) else Re (wt0 i)) in
    if return_fft then
      Ok (ConvFFT (if fftshift
                   then if crop then crop_to N ash (fftshiftN N (get fftmult)) else Arr N (fftshiftN N (get fftmult))
                   else fftmult))
    else
      let conv := ifftn fftmult in
      let rifft := if reweighting && normalized
                   then fun i => if Ceqb ks (RtoC 0) && inbb ash (subl i (starts N ash)) then NaN      (* 0/0 weights *)
                                 else reweight min_wt (get conv i) (bigimwt i)
                   else fun i => Fin (Re (get conv i)) in
      Ok (ConvReal (if crop then crop_to N ash rifft else Arr N rifft))
  end.
