(** shiftnd and shift2d with every operation rounded (continues M_rounding, where the transforms and their product were
    inexact and the kernel exact): the frequencies, their products with the offsets, the sum over the axes, the phase angle,
    its exponential and the modulus.  The bodies repeat M_shift line by line; the [.._exact] lemmas say that with exact
    operations they are the functions of M_shift.
    Simplification: a complex number with zero real part is multiplied by a real one, and subtracted from another such number,
    as its imaginary part (numpy computes the real part too and gets zero). *)
From Coq Require Import ZArith Lia List Reals Lra Bool FunctionalExtensionality.
From Coquelicot Require Import Complex.
From Verif Require Import Base NDim DFT Kernel Num Py M_fast_ffts M_shift M_scale M_zoom M_upsample M_convolve M_correlate Arg M_chi2 M_xcorr M_register
  M_rounding M_rounding2 M_rounding3.
Import ListNotations.
Open Scope R_scope.

(** shift.py:40, 41, 101: numpy.fft.fftfreq(n) multiplies integers by 1.0/n *)
Definition fftfreq_fp (S : sarith) (n k : Z) : R := sa_rd S (IZR (fidx n k) * sa_rd S (1 / IZR n)).
(** shift.py:100-107: the list of off*fftfreq(nx) at index k, and its sum *)
Fixpoint freq_terms_fp (S : sarith) (offset : list R) (sh : list Z) (k : list Z) : list R :=
  match offset, sh, k with
  | off :: offset', n :: sh', k0 :: k' => sa_rd S (off * fftfreq_fp S n k0) :: freq_terms_fp S offset' sh' k'
  | _, _, _ => []
  end.
Definition freq_grid_fp (S : sarith) (offset : list R) (sh : list Z) (k : list Z) : R :=
  fold_left (fun acc x => sa_rd S (acc + x)) (freq_terms_fp S offset sh k) 0.
(** shift.py:44 (= 109): the imaginary part of -1j*2*np.pi*freq_grid-1j*phase *)
Definition phase_angle_fp (S : sarith) (phase fg : R) : R := sa_rd S (sa_rd S (- sa_rd S (2 * sa_rd S PI) * fg) - phase).
(** shift.py:49-54, 113-118 *)
Definition pick_fp (S : sarith) (return_abs return_real : bool) (r : arr C) : anyarr :=
  if return_real then RealArr (amap Re r)
  else if return_abs then RealArr (amap (fun z => sa_rd S (Cmod z)) r)
  else CplxArr r.

(** shift.py:56-118 [shiftnd] *)
Definition shiftnd_fp (A : arith) (B : zarith) (S : sarith) (data : arr cnum) (offset : list R) (phase : R) (return_abs return_real : bool) : res anyarr :=
  let data' := clean_nan data in
  let sh := shape data in
  let! _ := check_freqs (map snd (combine offset sh)) in
  let kernel := Arr sh (fun k => za_cis B (phase_angle_fp S phase (freq_grid_fp S offset sh k))) in
  let! _ := check_fft sh in
  let spec := ar_fft A data' in
  let result := ar_ifft A (Arr sh (fun k => ar_mul A (get spec k) (get kernel k))) in
  Ok (pick_fp S return_abs return_real result).

(** shift.py:11-54 [shift2d] *)
Definition shift2d_fp (A : arith) (B : zarith) (S : sarith) (data : arr cnum) (deltax deltay phase : R) (return_abs return_real : bool) : res anyarr :=
  let data' := clean_nan data in
  match shape data with
  | [ny; nx] =>
    let! _ := check_freqs [nx] in
    let! _ := check_freqs [ny] in
    let xfreq := fun j => sa_rd S (deltax * fftfreq_fp S nx j) in
    let yfreq := fun i => sa_rd S (deltay * fftfreq_fp S ny i) in
    let kernel := mk2 ny nx (fun i j => za_cis B (phase_angle_fp S phase (sa_rd S (xfreq j + yfreq i)))) in
    let! _ := check_fft [ny; nx] in
    let spec := ar_fft A data' in
    let result := ar_ifft A (Arr [ny; nx] (fun k => ar_mul A (get spec k) (get kernel k))) in
    Ok (pick_fp S return_abs return_real result)
  | _ => Raise ValueError
  end.

Lemma fftfreq_exact n k : fftfreq_fp exact_sarith n k = fftfreq n k.
Proof. unfold fftfreq_fp, fftfreq, exact_sarith. cbn [sa_rd]. unfold Rdiv. ring. Qed.
Lemma freq_grid_exact offset : forall sh k, freq_grid_fp exact_sarith offset sh k = freq_grid offset sh k.
Proof.
  assert (G : forall sh k acc, fold_left (fun acc x => sa_rd exact_sarith (acc + x)) (freq_terms_fp exact_sarith offset sh k) acc = acc + freq_grid offset sh k).
  { induction offset as [|o os IH]; intros sh k acc; [cbn; ring|]. destruct sh as [|n sh]; [cbn; ring|]. destruct k as [|k0 k]; [cbn; ring|].
    cbn [freq_terms_fp freq_grid fold_left]. rewrite IH, fftfreq_exact. unfold exact_sarith. cbn [sa_rd]. ring. }
  intros sh k. unfold freq_grid_fp. rewrite G. ring.
Qed.
Lemma shiftnd_fp_exact hf data offset phase nt np ra rr :
  shiftnd_fp (exact_arith hf nt np) (exact_zarith hf nt np) exact_sarith data offset phase ra rr = shiftnd hf data offset phase nt np ra rr.
Proof.
  rewrite <- shiftnd_exact. unfold shiftnd_fp, shiftnd_with. destruct (check_freqs _); [|reflexivity]. cbn [bind].
  replace (fun k => za_cis (exact_zarith hf nt np) (phase_angle_fp exact_sarith phase (freq_grid_fp exact_sarith offset (shape data) k)))
    with (fun k => cis (- (2 * PI * freq_grid offset (shape data) k) - phase)); [reflexivity|].
  apply functional_extensionality. intros k. rewrite freq_grid_exact. unfold phase_angle_fp, exact_sarith, exact_zarith. cbn [sa_rd za_cis]. f_equal. ring.
Qed.
Lemma shift2d_fp_exact hf data dx dy phase nt np ra rr :
  shift2d_fp (exact_arith hf nt np) (exact_zarith hf nt np) exact_sarith data dx dy phase ra rr = shift2d hf data dx dy phase nt np ra rr.
Proof.
  unfold shift2d_fp, shift2d, exact_arith. destruct (get_ffts hf nt np) as [f g]. destruct (shape data) as [|ny [|nx [|]]]; try reflexivity.
  destruct (check_freqs [nx]); [|reflexivity]. cbn [bind]. destruct (check_freqs [ny]); [|reflexivity]. cbn [bind].
  replace (mk2 ny nx (fun i j => za_cis (exact_zarith hf nt np) (phase_angle_fp exact_sarith phase (sa_rd exact_sarith (sa_rd exact_sarith (dx * fftfreq_fp exact_sarith nx j) + sa_rd exact_sarith (dy * fftfreq_fp exact_sarith ny i))))))
    with (mk2 ny nx (fun i j => cis (- (2 * PI * (dx * fftfreq nx j + dy * fftfreq ny i)) - phase))); [reflexivity|].
  f_equal. apply functional_extensionality. intros i. apply functional_extensionality. intros j. rewrite !fftfreq_exact.
  unfold phase_angle_fp, exact_sarith, exact_zarith. cbn [sa_rd za_cis]. f_equal. ring.
Qed.
