(** chi2_shift with the differences chi2 - chi2.min() rounded too (continues M_rounding3, which rounds the chi2 map): these differences
    are compared with a level to choose the automatic upsampling factor and to find the error bars.  The bodies repeat M_chi2 line by
    line; the [.._exact] lemmas say that with exact differences they are the functions of M_rounding2 and M_rounding3.
    Simplification: pixel coordinates and comparisons are exact; verbose=False. *)
From Coq Require Import ZArith Lia List Reals Lra Bool.
From Coquelicot Require Import Complex.
From Verif Require Import Base NDim DFT Kernel Num Py M_fast_ffts M_shift M_scale M_zoom M_upsample M_convolve M_correlate Arg M_chi2
  M_rounding M_rounding2 M_rounding3.
Import ListNotations.
Open Scope R_scope.

(** chi2_shifts.py:180, 184 and 296-297: (chi2 - chi2.min()) < level, in C order *)
Definition area_rd (S : sarith) (ny nx : Z) (m : Z -> Z -> R) (thr : num) : list (Z * Z) :=
  filter (fun p => ltn (sa_rd S (m (fst p) (snd p) - min2 ny nx m)) thr) (pixels ny nx).
(** chi2_shifts.py:180-193 *)
Definition auto_size_rd (S : sarith) (e : env) (ny nx : Z) (chi2 : Z -> Z -> R) (max_nsig nfitted : R) : Z :=
  let sel := area_rd S ny nx chi2 (m_auto e max_nsig nfitted) in
  if (1 <? Z.of_nat (length sel))%Z then Z.max (spanZ (map snd sel)) (spanZ (map fst sel)) else 1%Z.
(** chi2_shifts.py:254-307 [chi2map_to_errors] *)
Definition chi2map_to_errors_rd (S : sarith) (e : env) (chi2map : arr R) (zoomfactor nsigma nfitted : R) : res (R * R * R * R) :=
  match shape chi2map with
  | [ny; nx] =>
    if Req_EM_T zoomfactor 0 then Raise Unmodelled else
    if (ny <=? 0)%Z || (nx <=? 0)%Z then Raise ValueError else
    let xx := fun p : Z * Z => (IZR (snd p) - IZR nx / 2) / zoomfactor in
    let yy := fun p : Z * Z => (IZR (fst p) - IZR ny / 2) / zoomfactor in
    let p := argmin2 ny nx (g2 chi2map) in
    let! thr := sigma_to_chi2 e nsigma nfitted in
    let sel := area_rd S ny nx (g2 chi2map) thr in
    let! xlo := lmin (map xx sel) in
    let! xhi := lmax (map xx sel) in
    let! ylo := lmin (map yy sel) in
    let! yhi := lmax (map yy sel) in
    Ok (xx p - xlo, xhi - xx p, yy p - ylo, yhi - yy p)
  | _ => Raise ValueError
  end.
(** chi2_shifts.py:147-252: [chi2_shift] after the map (see M_chi2.chi2_shift_tail) *)
Definition chi2_shift_tail_rd (B : zarith) (S : sarith) (e : env) (sh : list Z) (r : chi2res) (upsample_factor : usarg) (nfitted : R)
    (return_error return_chi2array : bool) (max_auto_size : Z) (max_nsig : R) : res (list retval) :=
  match r, sh with
  | Chi2All chi2 _ _ _, [ylen; xlen] =>
    let '(ymax, xmax) := argmin2 ylen xlen (g2 chi2) in
    let yshift := IZR ymax - cen ylen in
    let xshift := IZR xmax - cen xlen in
    let! win := match upsample_factor with
      | UAuto => let! u := auto_factor max_auto_size (auto_size_rd S e ylen xlen (g2 chi2) max_nsig nfitted) in
                 Ok (u, [max_auto_size; max_auto_size])
      | u => explicit_window u ylen xlen
      end in
    let '(usfac, outshape) := win in
    let! z := zoomnd_with B (RtoCa chi2) [yshift; xshift] (fun x => x) usfac (Some outshape) true true in
    match z, outshape with
    | (Some xouts, RealArr chi2_ups), [s1; s2] =>
      if (s1 <=? 0)%Z || (s2 <=? 0)%Z then Raise ValueError else
      let! errs := chi2map_to_errors_rd S e chi2_ups usfac 1 2 in
      let '(exl, exh, eyl, eyh) := errs in
      let '(i, j) := argmin2 s1 s2 (g2 chi2_ups) in
      let yshift_corr := get xouts [0%Z; i; j] - cen ylen in
      let xshift_corr := get xouts [1%Z; i; j] - cen xlen in
      Ok ([RNum (- xshift_corr); RNum (- yshift_corr)] ++
          (if return_error then [RNum ((exl + exh) / 2); RNum ((eyl + eyh) / 2)] else []) ++
          (if return_chi2array
           then [RMaps (mk2 s1 s2 (fun i j => get xouts [1%Z; i; j] - cen xlen))
                       (mk2 s1 s2 (fun i j => get xouts [0%Z; i; j] - cen ylen)) chi2_ups]
           else []))
    | _, _ => Raise Unmodelled
    end
  | _, _ => Raise ValueError
  end.
(** chi2_shifts.py:13-252 [chi2_shift] *)
Definition chi2_shift_all_rd (A : arith) (S : sarith) (B : zarith) (e : env) (im1 im2 : arr num) (err : errarg) (upsample_factor : usarg) (b : boundary)
    (zeromean : bool) (nfitted : R) (return_error return_chi2array : bool)
    (max_auto_size : Z) (max_nsig : R) (allow_huge : bool) : res (list retval) :=
  let! r := chi2n_map_rd A S (e_gb e) im1 im2 err b zeromean true false allow_huge in
  chi2_shift_tail_rd B S e (shape im1) r upsample_factor nfitted return_error return_chi2array max_auto_size max_nsig.

Lemma chi2_shift_tail_rd_exact B e sh r us nf re rc mas mns :
  chi2_shift_tail_rd B exact_sarith e sh r us nf re rc mas mns = chi2_shift_tail_with B e sh r us nf false re rc mas mns.
Proof. reflexivity. Qed.
Lemma chi2_shift_all_rd_exact A B e im1 im2 err us b zm nf re rc mas mns huge :
  chi2_shift_all_rd A exact_sarith B e im1 im2 err us b zm nf re rc mas mns huge = chi2_shift_with A B e im1 im2 err us b zm nf false re rc mas mns huge.
Proof. unfold chi2_shift_all_rd, chi2_shift_with. rewrite chi2n_map_rd_exact. reflexivity. Qed.
