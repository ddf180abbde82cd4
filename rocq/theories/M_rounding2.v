(** Zooming, upsampling and chi2_shift with inexact Fourier transforms, exponentials and dot products (continues M_rounding).
    The bodies repeat M_scale, M_zoom, M_upsample and M_chi2 line by line; the [.._exact] lemmas say that with exact operations
    they are those models.
    Simplification: pixel coordinates, scalar sums and comparisons are exact. *)
From Coq Require Import ZArith Lia List Reals Lra Bool.
From Coquelicot Require Import Complex.
From Verif Require Import Base NDim DFT Kernel Num Py M_fast_ffts M_shift M_scale M_zoom M_upsample M_convolve M_correlate Arg M_chi2 M_rounding.
Import ListNotations.
Open Scope R_scope.

(** numpy.fft.ifftn (or fftw), np.exp of an imaginary number, and one entry of np.dot: the sum of n products *)
Record zarith := ZArith { za_ifft : arr C -> arr C; za_cis : R -> C; za_dot : Z -> (Z -> C) -> (Z -> C) -> C }.
Definition exact_zarith (has_fftw : bool) (nthreads : Z) (use_numpy_fft : bool) : zarith :=
  ZArith (snd (get_ffts has_fftw nthreads use_numpy_fft)) cis (fun n a b => sumC n (fun k => Cmult (a k) (b k))).

(** scale.py:4-65 [fourier_interp1d] *)
Definition fourier_interp1d_with (B : zarith) (data : arr C) (out_x : arr R) (data_x : option (arr R)) (return_real : bool) : res anyarr :=
  match shape data with
  | [n] =>
    let! _ := check_freqs [n] in
    match shape out_x with
    | [m] =>
      let! outinds :=
        match data_x with
        | Some dx => if list_eq_dec Z.eq_dec (shape dx) (shape data)
                     then Ok (fun j => np_interp n (g1 dx) IZR (g1 out_x j))
                     else Raise ValueError
        | None => Ok (g1 out_x)
        end in
      let kern := fun k j => za_cis B (- (2 * PI) * fftfreq n k * outinds j) in
      let! _ := check_fft [n] in
      let im := za_ifft B data in
      Ok (pick_real return_real (mk1 m (fun j => za_dot B n (fun k => g1 im k) (fun k => kern k j))))
    | _ => Raise ValueError
    end
  | _ => Raise Unmodelled
  end.
Lemma fourier_interp1d_exact hf data out_x data_x nt np rr :
  fourier_interp1d_with (exact_zarith hf nt np) data out_x data_x rr = fourier_interp1d hf data out_x data_x nt np rr.
Proof. unfold fourier_interp1d, fourier_interp1d_with, exact_zarith. destruct (get_ffts hf nt np). reflexivity. Qed.

(** scale.py:67-114 [fourier_interp2d] *)
Definition fourier_interp2d_with (B : zarith) (data : arr C) (outinds : indspec) (return_real : bool) : res anyarr :=
  let! _ := check_outinds (ndim data) outinds in
  match shape data with
  | [ny; nx] =>
    let! _ := check_fft [ny; nx] in
    let imfft := za_ifft B data in
    let! ys := axis_coords outinds 0 in
    let kerny := fun i k => za_cis B (- (2 * PI) * (fftfreq ny k * g1 ys i)) in
    let! xs := axis_coords outinds 1 in
    let kernx := fun l j => za_cis B (- (2 * PI) * (fftfreq nx l * g1 xs j)) in
    let dot1 := fun i l => za_dot B ny (fun k => kerny i k) (fun k => g2 imfft k l) in
    Ok (pick_real return_real
          (mk2 (nth 0 (shape ys) 0%Z) (nth 0 (shape xs) 0%Z)
               (fun i j => za_dot B nx (fun l => dot1 i l) (fun l => kernx l j))))
  | _ => Raise Unmodelled
  end.
Lemma fourier_interp2d_exact hf data outinds nt np rr :
  fourier_interp2d_with (exact_zarith hf nt np) data outinds rr = fourier_interp2d hf data outinds nt np rr.
Proof. unfold fourier_interp2d, fourier_interp2d_with, exact_zarith. destruct (get_ffts hf nt np). reflexivity. Qed.

(** zoom.py:5-51 [zoom1d] *)
Definition zoom1d_with (B : zarith) (inp : arr C) (usfac : R) (outsize : option Z) (offset : R) (return_xouts return_real : bool) : res zoomres :=
  match shape inp with
  | [insize] =>
    let outsize := match outsize with None => insize | Some m => m end in
    let middle := (IZR insize - 1) / 2 + offset in
    let! h := pydiv (IZR (outsize - 1)) usfac in
    let! outarr := linspace (middle - h / 2) (middle + h / 2) outsize in
    let! result := fourier_interp1d_with B inp outarr None return_real in
    Ok (with_xouts return_xouts outarr result)
  | _ => Raise ValueError
  end.
Lemma zoom1d_exact hf inp u o off nt np rx rr : zoom1d_with (exact_zarith hf nt np) inp u o off rx rr = zoom1d hf inp u o off nt np rx rr.
Proof.
  unfold zoom1d, zoom1d_with. destruct (shape inp) as [|n [|]]; try reflexivity. destruct (pydiv _ _); [|reflexivity]. cbn [bind].
  destruct (linspace _ _ _); [|reflexivity]. cbn [bind]. rewrite fourier_interp1d_exact. reflexivity.
Qed.

(** zoom.py:53-119 [zoom_on_pixel] *)
Definition zoom_on_pixel_with (B : zarith) (inp : arr C) (coordinates : list R) (usfac : R)
    (outshape : option (list Z)) (return_real return_xouts : bool) : res zoomres :=
  let inshape := shape inp in
  let outshape := match outshape with None => inshape | Some s => s end in
  if negb (Nat.eqb (length outshape) (length inshape)) then
    Raise (wrong_outshape (length inshape) coordinates usfac outshape)
  else if existsb (fun m => (m <? 0)%Z) outshape then Raise ValueError
  else
    let! _ := if (Nat.eqb (length (combine inshape coordinates)) 0) then Ok tt
              else (let! _ := pydiv 1 usfac in Ok tt) in
    let grid := fun i => match i with
                         | d :: l => axis_grid coordinates usfac (nth (Z.to_nat d) outshape 0%Z) (Z.to_nat d) (nth (Z.to_nat d) l 0%Z)
                         | [] => 0 end in
    let outarr := Arr (Z.of_nat (length inshape) :: outshape) grid in
    match inshape with
    | [_] =>
      let m := nth 0 outshape 0%Z in
      let sq := if (m =? 1)%Z then Arr [] (fun _ => get outarr [0; 0]%Z) else mk1 m (fun j => get outarr [0%Z; j]) in
      let! result := fourier_interp1d_with B inp sq None return_real in
      Ok (with_xouts return_xouts outarr result)
    | [_; _] =>
      let! result := fourier_interp2d_with B inp (IndArr outarr) return_real in
      Ok (with_xouts return_xouts outarr result)
    | _ => Raise NotImplementedError
    end.
Lemma zoom_on_pixel_exact hf inp c u o nt np rr rx : zoom_on_pixel_with (exact_zarith hf nt np) inp c u o rr rx = zoom_on_pixel hf inp c u o nt np rr rx.
Proof.
  unfold zoom_on_pixel, zoom_on_pixel_with. destruct (negb _); [reflexivity|]. destruct (existsb _ _); [reflexivity|].
  destruct (if Nat.eqb _ 0 then _ else _); [|reflexivity]. cbn [bind]. destruct (shape inp) as [|n [|n2 [|]]]; try reflexivity.
  - rewrite fourier_interp1d_exact. reflexivity.
  - rewrite fourier_interp2d_exact. reflexivity.
Qed.

(** zoom.py:121-172 [zoomnd] *)
Definition zoomnd_with (B : zarith) (inp : arr C) (offsets : list R) (middle_convention : R -> R) (usfac : R)
    (outshape : option (list Z)) (return_real return_xouts : bool) : res zoomres :=
  if (Nat.ltb 0 (length offsets)) && negb (Nat.eqb (length offsets) (ndim inp)) then Raise ValueError
  else
    let offsets := if Nat.eqb (length offsets) 0 then repeat 0 (ndim inp) else offsets in
    let middlepix := zipw (fun insize off => middle_convention (IZR (insize - 1) / 2) + off) (shape inp) offsets in
    zoom_on_pixel_with B inp middlepix usfac outshape return_real return_xouts.
Lemma zoomnd_exact hf inp off mc u o nt np rr rx : zoomnd_with (exact_zarith hf nt np) inp off mc u o rr rx = zoomnd hf inp off mc u o nt np rr rx.
Proof. unfold zoomnd, zoomnd_with. destruct (_ && _); [reflexivity|]. apply zoom_on_pixel_exact. Qed.

(** upsample.py:7-63 [dftups] *)
Definition dftups_with (B : zarith) (inp : arr C) (nor noc : option R) (usfac roff coff : R) : res (arr C) :=
  match shape inp with
  | [nr; nc] =>
    let noc' := match noc with None => IZR nc | Some v => v end in
    let nor' := match nor with None => IZR nr | Some v => v end in
    let term1c := fun l => np_ifftshift nc (fun j => IZR j - IZR (nc / 2)) l / IZR nc in
    let term2c := fun c => (IZR c - coff) / usfac in
    let kernc := fun l c => za_cis B (- (2 * PI) * term1c l * term2c c) in
    let term1r := fun r => IZR r - roff in
    let term2r := fun k => np_ifftshift nr IZR k - IZR (nr / 2) in
    if Req_EM_T (IZR nr * usfac) 0 then Raise ZeroDivisionError else
    let kernr := fun r k => za_cis B (- (2 * PI) / (IZR nr * usfac) * term1r r * term2r k) in
    let dot1 := fun r l => za_dot B nr (fun k => kernr r k) (fun k => g2 inp k l) in
    Ok (mk2 (arange_len nor') (arange_len noc') (fun r c => za_dot B nc (fun l => dot1 r l) (fun l => kernc l c)))
  | _ => Raise ValueError
  end.
(** upsample.py:93-114 [upsample_image] *)
Definition upsample_image_with (B : zarith) (image : arr C) (upsample_factor : R) (output_size : osize) (xshift yshift : R) : res (arr C) :=
  let! _ := check_fft (shape image) in
  let imfft := za_ifft B image in
  let! s := match output_size with
            | ONone => match shape image with
                       | n1 :: n2 :: _ => Ok (IZR n1 * upsample_factor, IZR n2 * upsample_factor)
                       | _ => Raise IndexError
                       end
            | OSeq l => match l with s1 :: s2 :: _ => Ok (s1, s2) | _ => Raise IndexError end
            | ONum v => Ok (v, v)
            end in
  dftups_with B imfft (Some (fst s)) (Some (snd s)) upsample_factor yshift xshift.
Lemma upsample_image_exact hf image u o nt np xs ys : upsample_image_with (exact_zarith hf nt np) image u o xs ys = upsample_image hf image u o nt np xs ys.
Proof.
  unfold upsample_image, upsample_image_with, exact_zarith. destruct (get_ffts hf nt np). cbn [za_ifft snd].
  destruct (check_fft _); [|reflexivity]. cbn [bind]. destruct (match o with ONone => _ | OSeq _ => _ | ONum _ => _ end); reflexivity.
Qed.

(** chi2_shifts.py:152-252: [chi2_shift] after the map (see M_chi2.chi2_shift_tail) *)
Definition chi2_shift_tail_with (B : zarith) (e : env) (sh : list Z) (r : chi2res) (upsample_factor : usarg) (nfitted : R)
    (verbose return_error return_chi2array : bool) (max_auto_size : Z) (max_nsig : R) : res (list retval) :=
  match r, sh with
  | Chi2All chi2 _ _ _, [ylen; xlen] =>
    let '(ymax, xmax) := argmin2 ylen xlen (g2 chi2) in
    let yshift := IZR ymax - cen ylen in
    let xshift := IZR xmax - cen xlen in
    let! win := match upsample_factor with
      | UAuto => let! _ := verbose_check verbose ylen xlen (g2 chi2) in
                 let! u := auto_factor max_auto_size (auto_size e ylen xlen (g2 chi2) max_nsig nfitted) in
                 Ok (u, [max_auto_size; max_auto_size])
      | u => explicit_window u ylen xlen
      end in
    let '(usfac, outshape) := win in
    let! z := zoomnd_with B (RtoCa chi2) [yshift; xshift] (fun x => x) usfac (Some outshape) true true in
    match z, outshape with
    | (Some xouts, RealArr chi2_ups), [s1; s2] =>
      if (s1 <=? 0)%Z || (s2 <=? 0)%Z then Raise ValueError else
      let! _ := verbose_check verbose s1 s2 (g2 chi2_ups) in
      let! errs := chi2map_to_errors e chi2_ups usfac 1 2 in
      let '(exl, exh, eyl, eyh) := errs in
      let '(i, j) := argmin2 s1 s2 (g2 chi2_ups) in
      let yshift_corr := get xouts [0%Z; i; j] - cen ylen in
      let xshift_corr := get xouts [1%Z; i; j] - cen xlen in
      Ok ([RNum (- xshift_corr); RNum (- yshift_corr)] ++
          (if return_error then [RNum ((exl + exh) / 2); RNum ((eyl + eyh) / 2)] else []) ++
          (if return_chi2array
           then [RMaps (mk2 s1 s2 (fun i j => get xouts [1%Z; i; j] - cen xlen))
                       (mk2 s1 s2 (fun i j => get xouts [0%Z; i; j] - cen ylen)) chi2_ups]
           else []))
    | _, _ => Raise Unmodelled
    end
  | _, _ => Raise ValueError
  end.
(** chi2_shifts.py:13-252 [chi2_shift]; the map is computed with A, the zoom with B *)
Definition chi2_shift_with (A : arith) (B : zarith) (e : env) (im1 im2 : arr num) (err : errarg) (upsample_factor : usarg) (b : boundary)
    (zeromean : bool) (nfitted : R) (verbose return_error return_chi2array : bool)
    (max_auto_size : Z) (max_nsig : R) (allow_huge : bool) : res (list retval) :=
  let! r := chi2n_map_with A (e_gb e) im1 im2 err b zeromean true false allow_huge in
  chi2_shift_tail_with B e (shape im1) r upsample_factor nfitted verbose return_error return_chi2array max_auto_size max_nsig.
Lemma chi2_shift_tail_exact e sh r us nf vb re rc mas mns :
  chi2_shift_tail_with (exact_zarith (e_fftw e) 1 false) e sh r us nf vb re rc mas mns = chi2_shift_tail e sh r us nf vb re rc mas mns.
Proof.
  unfold chi2_shift_tail, chi2_shift_tail_with. destruct r as [c|c t1 t2 t3]; [reflexivity|]. destruct sh as [|ny [|nx [|]]]; try reflexivity.
  destruct (argmin2 ny nx (g2 c)) as [ym xm]. destruct (match us with UAuto => _ | UInt _ => _ | UFloat _ => _ end) as [[u o]|]; [|reflexivity].
  cbn [bind]. rewrite zoomnd_exact. reflexivity.
Qed.
Lemma chi2_shift_exact e im1 im2 err us b nt np zm nf vb re rc mas mns huge :
  chi2_shift_with (exact_arith (e_fftw e) nt np) (exact_zarith (e_fftw e) 1 false) e im1 im2 err us b zm nf vb re rc mas mns huge =
  chi2_shift e im1 im2 err us b nt np zm nf vb re rc mas mns huge.
Proof.
  unfold chi2_shift, chi2_shift_with. rewrite chi2n_map_exact. destruct (chi2n_map _ _ _ _ _ _ _ _ _ _ _); [|reflexivity]. cbn [bind]. apply chi2_shift_tail_exact.
Qed.
