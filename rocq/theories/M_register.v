(** Model of image_registration/register_images.py *)
From Coq Require Import ZArith Lia List Reals Lra Bool.
From Coquelicot Require Import Complex.
From Verif Require Import Base NDim DFT Kernel Num Py M_fast_ffts M_shift M_upsample Arg M_chi2 M_xcorr.
Import ListNotations.
Open Scope R_scope.

(** numpy.fft.fftshift along one axis of length n: roll by n//2 (external, documented) *)
Definition np_fftshift {A} (n : Z) (a : Z -> A) : Z -> A := fun k => a ((k - n / 2) mod n)%Z.
(** both axes *)
Definition fftshift2 {A} (m n : Z) (a : Z -> Z -> A) : Z -> Z -> A :=
  fun i j => np_fftshift m (fun p => np_fftshift n (fun q => a p q) j) i.
Definition ifftshift2 {A} (m n : Z) (a : Z -> Z -> A) : Z -> Z -> A :=
  fun i j => np_ifftshift m (fun p => np_ifftshift n (fun q => a p q) j) i.

(** np.linspace(a, b, n)[j] *)
Definition linspace (a b : R) (n j : Z) : R := if (n =? 1)%Z then a else a + IZR j * ((b - a) / IZR (n - 1)).

(** numpy.arctan2(y, x) on finite floats (the sign of a zero is not tracked) *)
Definition arctan2 (y x : R) : R :=
  if Rlt_dec 0 x then atan (y / x)
  else if Rlt_dec x 0 then (if Rle_dec 0 y then atan (y / x) + PI else atan (y / x) - PI)
  else if Rlt_dec 0 y then PI / 2 else if Rlt_dec y 0 then - (PI / 2) else 0.

(** a:b contains k *)
Definition in_slice (n a b k : Z) : bool := let '(s, l) := pyslice n a b in ((s <=? k) && (k <? s + l))%Z.

(** register_images.py:145-152 = 192-199: with maxoff the interior is set to zero (CC[maxoff:-maxoff,:] = 0 and
    CC[:,maxoff:-maxoff] = 0) before the peak is located *)
Definition limit_cc (m n : Z) (maxoff : option Z) (cc : Z -> Z -> C) : Z -> Z -> C :=
  match maxoff with
  | None => cc
  | Some k => fun i j => if in_slice m k (- k) i || in_slice n k (- k) j then RtoC 0 else cc i j
  end.
(** np.unravel_index(abs(CC).argmax(), CC.shape) *)
Definition peak (m n : Z) (cc : Z -> Z -> C) : Z * Z := argmax2 m n (fun i j => Cmod (cc i j)).
(** register_images.py:159-167, 217-224: positions beyond the middle count as negative *)
Definition unwrap (n k : Z) : Z := if Rlt_dec (IZR (truncR (IZR n / 2))) (IZR k) then (k - n)%Z else k.

(** register_images.py:178-184: the product of the transforms centred in an array of twice the size *)
Definition embed2 (m n : Z) (a : Z -> Z -> C) : Z -> Z -> C :=
  let r0 := truncR (IZR (m - truncR (IZR m / 2))) in
  let r1 := truncR (IZR (m + truncR (IZR (m - 1) / 2) + 1)) in
  let c0 := truncR (IZR (n - truncR (IZR n / 2))) in
  let c1 := truncR (IZR (n + truncR (IZR (n - 1) / 2) + 1)) in
  fun i j => if ((r0 <=? i) && (i <? r1) && (c0 <=? j) && (j <? c1))%Z then a (i - r0)%Z (j - c0)%Z else RtoC 0.

Inductive regval := RgNum (r : R) | RgFt (a : arr C) | RgImg (a : arr R).

(** register_images.py:75-309 [dftregistration], DEBUG=False, two transforms of the same shape.
    The "error" (lines 153-156, 263-264) is computed but never returned (numpy division: no exception), and is omitted,
    as are rg00/rf00. *)
Definition dftregistration (has_fftw : bool) (buf1ft buf2ft : arr C) (usfac : R) (return_registered return_error : bool)
    (maxoff : option Z) (nthreads : Z) (use_numpy_fft : bool) : res (list regval) :=
  let '(_, ifft2) := get_ffts has_fftw nthreads use_numpy_fft in
  if Req_EM_T usfac 0 then Raise ValueError else
  match shape buf1ft with
  | [m; n] =>
    let! found :=                                                           (* row_shift, col_shift, CCmax *)
      (if Req_EM_T usfac 1 then
         let cc := limit_cc m n maxoff (g2 (ifft2 (mk2 m n (fun i j => Cmult (g2 buf1ft i j) (Cconj (g2 buf2ft i j)))))) in
         let '(rloc, cloc) := peak m n cc in
         Ok (IZR (unwrap m rloc), IZR (unwrap n cloc), cc rloc cloc)
       else
         let large := embed2 m n (fun i j => Cmult (fftshift2 m n (g2 buf1ft) i j) (Cconj (fftshift2 m n (g2 buf2ft) i j))) in
         let m2 := (m * 2)%Z in let n2 := (n * 2)%Z in
         let cc := limit_cc m2 n2 maxoff (g2 (ifft2 (mk2 m2 n2 (ifftshift2 m2 n2 large)))) in
         let '(rloc, cloc) := peak m2 n2 cc in
         let md2 := truncR (IZR m2 / 2) in let nd2 := truncR (IZR n2 / 2) in
         let row_shift2 := IZR (unwrap m2 rloc) / 2 in
         let col_shift2 := IZR (unwrap n2 cloc) / 2 in
         let! fine :=
           (if Rlt_dec 2 usfac then
              let row_shift0 := IZR (roundR (row_shift2 * usfac)) / usfac in
              let col_shift0 := IZR (roundR (col_shift2 * usfac)) / usfac in
              let size := IZR (ceilR (usfac * (3 / 2))) in
              let dftshift := IZR (truncR (size / 2)) in
              let roff := dftshift - row_shift0 * usfac in
              let coff := dftshift - col_shift0 * usfac in
              let! ups := dftups (mk2 m n (fun i j => Cmult (g2 buf2ft i j) (Cconj (g2 buf1ft i j)))) (Some size) (Some size) usfac roff coff in
              match shape ups with
              | [h; w] =>
                let cc := fun i j => Cdiv (Cconj (g2 ups i j)) (RtoC (IZR md2 * IZR nd2 * usfac ^ 2)) in
                let '(rl, cl) := peak h w cc in
                Ok (row_shift0 + (IZR rl - dftshift) / usfac, col_shift0 + (IZR cl - dftshift) / usfac, cc rl cl)
              | _ => Raise ValueError
              end
            else Ok (row_shift2, col_shift2, cc rloc cloc)) in
         let '(row_shift, col_shift, ccmax) := fine in
         Ok ((if (md2 =? 1)%Z then 0 else row_shift), (if (nd2 =? 1)%Z then 0 else col_shift), ccmax)) in
    let '(row_shift, col_shift, ccmax) := found in
    let diffphase := arctan2 (Im ccmax) (Re ccmax) in
    let output := [RgNum row_shift; RgNum col_shift] ++ (if return_error then [RgNum (1 / usfac); RgNum (1 / usfac)] else []) in
    if return_registered then
      if Rlt_dec 0 usfac then
        let freq := fun k => np_ifftshift k (linspace (- IZR (truncR (IZR k / 2))) (IZR (ceilR (IZR k / 2)) - 1) k) in
        Ok (output ++ [RgFt (mk2 m n (fun i j =>
              Cmult (Cmult (g2 buf2ft i j) (cis (2 * PI * (- row_shift * freq m i / IZR m - col_shift * freq n j / IZR n))))
                    (cis diffphase)))])
      else Raise UnboundLocalError                                          (* Greg is not assigned *)
    else Ok output
  | _ => Raise ValueError
  end.

(** register_images.py:9-72 [register_images]; nthreads and use_numpy_fft are not passed on to dftregistration (line 61) *)
Definition register_images (has_fftw : bool) (im1 im2 : arr num) (usfac : R) (return_registered return_error zeromean : bool)
    (maxoff : option Z) (nthreads : Z) (use_numpy_fft : bool) : res (list regval) :=
  if negb (if list_eq_dec Z.eq_dec (shape im1) (shape im2) then true else false) then Raise ValueError else
  let sh := shape im1 in
  let a1 := zero_mean zeromean im1 in
  let a2 := zero_mean zeromean im2 in
  let '(fft2, ifft2) := get_ffts has_fftw nthreads use_numpy_fft in
  let! _ := check_fft sh in
  let im1fft := fft2 (Arr sh (fun i => RtoC (nan0 (get a1 i)))) in
  let im2fft := fft2 (Arr sh (fun i => RtoC (nan0 (get a2 i)))) in
  let! output := dftregistration has_fftw im1fft im2fft usfac return_registered return_error maxoff 1 false in
  match output with
  | RgNum r :: RgNum c :: rest =>
    let rest' := map (fun v => match v with
                               | RgFt g => if return_registered
                                           then RgImg (match shape g with
                                                       | [m; n] => mk2 m n (ifftshift2 m n (fun i j => Cmod (g2 (ifft2 g) i j)))
                                                       | _ => Arr (shape g) (fun _ => 0)
                                                       end)
                                           else v
                               | _ => v
                               end) rest in
    Ok (RgNum (- c) :: RgNum (- r) :: rest')
  | _ => Raise IndexError
  end.
