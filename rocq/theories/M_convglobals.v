(** Model of the shared module state of image_registration/fft_tools/convolve_nd.py: every call of convolvend rebinds the module
    globals [fftn] and [ifftn] (line 175) and looks them up again at each transform, so other threads (or earlier calls) can
    change them in between. *)
From Coq Require Import ZArith Lia List Reals Lra Bool.
From Coquelicot Require Import Complex.
From Verif Require Import Base NDim DFT Kernel Py M_fast_ffts M_shift M_convolve.
Import ListNotations.
Open Scope R_scope.

(** what a global can be bound to: numpy's transform (25-26, 183-184) or a closure over fftw with the [nthreads] of the call
    that defined it (177-181) *)
Inductive xform := XNumpy | XFftw (nthreads : Z).
Definition fwd (x : xform) : arr C -> arr C := match x with XNumpy => np_fftn | XFftw n => fftwn n end.
Definition inv (x : xform) : arr C -> arr C := match x with XNumpy => np_ifftn | XFftw n => ifftwn n end.

(** a call, as the sequence of its accesses to the globals *)
Inductive prog :=
| Done (r : res convres)
| SetF (x : xform) (k : prog)                       (* def fftn ... / fftn = np.fft.fftn *)
| SetI (x : xform) (k : prog)
| UseF (a : arr C) (k : arr C -> prog)              (* fftn(a) *)
| UseI (a : arr C) (k : arr C -> prog).

(** convolve_nd.py:175-184 *)
Definition rebind (has_fftw use_numpy_fft : bool) (nthreads : Z) (k : prog) : prog :=
  if has_fftw && negb use_numpy_fft then SetF (XFftw nthreads) (SetI (XFftw nthreads) k)
  else if use_numpy_fft then SetF XNumpy (SetI XNumpy k)
  else k.

(** convolve_nd.py:38-328 [convolvend], statement by statement; the pure parts are those of [convolvend] in M_convolve.v *)
Definition convolvend_prog (has_fftw np_complex_ok list_index_ok : bool) (array kernel : arr cnum)
    (b : boundary) (fill_value : num) (crop return_fft fftshift fft_pad psf_pad interpolate_nan ignore_edge_zeros : bool)
    (min_wt : R) (normalize_kernel : normk) (use_numpy_fft : bool) (nthreads : Z) : prog :=
  if negb np_complex_ok then Done (Raise AttributeError) else
  if negb (Nat.eqb (ndim array) (ndim kernel)) then Done (Raise PlainException) else
  rebind has_fftw use_numpy_fft nthreads (
  let nanmask := fun i => cisnan (get array i) in
  let a0 := nan_zeroed array in
  let k0 := nan_zeroed kernel in
  let ksum0 := sumNC (shape k0) (get k0) in
  let '(kern, normalized) :=
    match normalize_kernel with
    | NkTrue => (if Ceqb ksum0 (RtoC 0) then None else Some (amap (fun z => Cdiv z ksum0) k0), true)
    | NkFun f => (if Ceqb (f k0) (RtoC 0) then None else Some (amap (fun z => Cdiv z (f k0)) k0), true)
    | NkFalse => (Some k0, if Rlt_dec (Cmod (Cminus ksum0 (RtoC 1))) (/ 10 ^ 8) then true else false)
    end in
  let pads := match b with
    | BNone | BFill => Ok (fft_pad, true, fill_value)
    | BWrap => Ok (false, false, Fin 0)
    | BExtend => Raise NotImplementedError
    | BOther => Ok (fft_pad, psf_pad, fill_value)
    end in
  match pads with
  | Raise e => Done (Raise e)
  | Ok (fpad, ppad, fill) =>
  let ash := shape array in
  let ksh := shape kernel in
  if fpad && Nat.eqb (length ash) 0 then Done (Raise ValueError) else
  let N := newshape fpad ppad ash ksh in
  if negb list_index_ok then Done (Raise IndexError) else
  match check_fft N with
  | Raise e => Done (Raise e)
  | Ok _ =>
  match kern with
  | None => Done (Raise ValueError)
  | Some kern =>
    if isnan fill && existsN N (fun i => negb (inbb ash (subl i (starts N ash)))) then Done (Raise ValueError) else
    UseF (Arr N (embed N ash (get a0) (RtoC (nan0 fill)))) (fun arrayfft =>                            (* 271 *)
    UseF (Arr N (ifftshiftN N (embed N ksh (get kern) (RtoC 0)))) (fun kernfft =>                      (* 273 *)
    let fftmult := Arr N (fun k => Cmult (get arrayfft k) (get kernfft k)) in
    let reweighting := interpolate_nan || ignore_edge_zeros in
    let ks := sumNC (shape kern) (get kern) in
    let wt0 := embed N ash (fun i => if nanmask i && interpolate_nan then RtoC 0 else RtoC 1)
                     (if ignore_edge_zeros then RtoC 0 else RtoC 1) in
    let finish := fun wtsm : arr C =>
      let bigimwt := fun i => Rmax 0 (if inbb ash (subl i (starts N ash)) then Re (get wtsm i) else Re (wt0 i)) in
      if return_fft then
        Done (Ok (ConvFFT (if fftshift
                     then if crop then crop_to N ash (fftshiftN N (get fftmult)) else Arr N (fftshiftN N (get fftmult))
                     else fftmult)))
      else
        UseI fftmult (fun conv =>                                                                       (* 314, 321 *)
        let rifft := if reweighting && normalized
                     then fun i => if Ceqb ks (RtoC 0) && inbb ash (subl i (starts N ash)) then NaN
                                   else reweight min_wt (get conv i) (bigimwt i)
                     else fun i => Fin (Re (get conv i)) in
        Done (Ok (ConvReal (if crop then crop_to N ash rifft else Arr N rifft)))) in
    if reweighting && normalized then
      UseF (Arr N wt0) (fun wtfft =>                                                                    (* 281 *)
      UseI (Arr N (fun k => Cdiv (Cmult (get wtfft k) (get kernfft k)) ks)) finish)                     (* 285 *)
    else finish (Arr N (fun _ => RtoC 0))))
  end end end).

(** the module globals *)
Record globals := Globals { g_fftn : option xform; g_ifftn : option xform }.
(** after the import (6-28): bound to numpy only when fftw3 is missing *)
Definition after_import (has_fftw : bool) : globals :=
  if has_fftw then Globals None None else Globals (Some XNumpy) (Some XNumpy).

(** one access of one call; an unbound global raises NameError *)
Definition step (g : globals) (p : prog) : globals * prog :=
  match p with
  | Done r => (g, Done r)
  | SetF x k => (Globals (Some x) (g_ifftn g), k)
  | SetI x k => (Globals (g_fftn g) (Some x), k)
  | UseF a k => (g, match g_fftn g with Some x => k (fwd x a) | None => Done (Raise NameError) end)
  | UseI a k => (g, match g_ifftn g with Some x => k (inv x a) | None => Done (Raise NameError) end)
  end.

(** calls in progress, by thread; a schedule picks the thread that makes the next access *)
Fixpoint upd (l : list prog) (t : nat) (p : prog) : list prog :=
  match l, t with
  | [], _ => []
  | _ :: l', O => p :: l'
  | q :: l', S t' => q :: upd l' t' p
  end.
Fixpoint run (sched : list nat) (g : globals) (ts : list prog) : globals * list prog :=
  match sched with
  | [] => (g, ts)
  | t :: sched' =>
    match nth_error ts t with
    | None => run sched' g ts
    | Some p => let '(g', p') := step g p in run sched' g' (upd ts t p')
    end
  end.
