(** C138: the verdicts of the project's own tests *)
From Coq Require Import ZArith Lia List Reals Lra Bool.
From Coquelicot Require Import Complex.
From Verif Require Import Base NDim DFT Kernel Num Py Sum2 M_fast_ffts M_shift M_scale M_zoom M_upsample M_convolve M_correlate M_kernel Arg M_chi2 M_xcorr M_register M_testing M_testing2 M_testing4
  Spec L_shift L_scale L_upsample L_convolve Spec2 Spec3 Spec4 L_correlate L_chi2 L_zoom L_register L_register2
  L_chi2shift L_fshift P_shift P_chi2map P_chi2errors P_chi2shift P_chi2shift2 P_correlate P_kernel P_rounding P_xcorr P_xcorr2 P_register P_leastsq P_covers L_iterzoom2 L_accuracy P_accuracy P_testing P_testing3.
Import ListNotations.
Open Scope R_scope.

Lemma below_spec a b : below a b = true <-> a < b.
Proof. unfold below. destruct (Rlt_dec a b); split; intros; auto; try discriminate; contradiction. Qed.
Lemma ltn_spec a t : ltn a (Fin t) = true <-> a < t.
Proof. cbn [ltn]. destruct (Rlt_dec a t); split; intros; auto; try discriminate; contradiction. Qed.
Lemma trunc_IZR k : (0 <= k)%Z -> truncR (IZR k) = k.
Proof. intros Hk. unfold truncR. destruct (Rle_dec 0 (IZR k)) as [_|N]; [apply floorR_IZR|]. exfalso. apply N. apply IZR_le. lia. Qed.

(** the automatic fit of two n x n images with a constant error always returns an offset and two error bars *)
Lemma auto_fit_ok e im off s n t : shape im = [n; n] -> shape off = [n; n] -> (0 < n)%Z -> s <> 0 -> size_ok e false n n -> one_sigma e t ->
  exists x y ex ey, auto_fit e im off (ErrScalar s) = Ok (x, y, ex, ey) /\ 0 <= ex /\ 0 <= ey /\
    chi2_shift e (amap Fin im) (amap Fin off) (ErrScalar s) UAuto BWrap 1 false false 2 false true false 512 (11 / 10) false = Ok [RNum x; RNum y; RNum ex; RNum ey].
Proof.
  intros S1 S2 Hn Hs Hh Ht.
  destruct (C43_full_result e (amap Fin im) (amap Fin off) (ErrScalar s) UAuto 1 false false 2 true false 512 (11 / 10) false n n t S1 S2 Hn Hn Hs Hh ltac:(cbn; lia) Ht)
    as [c [t1 [t2 [t3 [ym [xm [u [s1 [s2 [xv [yv [ups [i [j [xl [xh [yl [yh [_ [_ [FG [_ [_ [S3 [_ [AF [EB K]]]]]]]]]]]]]]]]]]]]]]]]]]].
  cbn [app] in K. destruct FG as [-> [-> [size [Hz [Hu _]]]]].
  assert (U0 : 0 < u) by (rewrite Hu; assert (Q := Rmax_l 1 (IZR 512 / 2 / IZR size)); lra).
  apply one_sigma_thr in Ht. destruct Ht as [Ht Ht0].
  destruct (C42_error_bars e ups u 1 2 512 512 t S3 ltac:(lia) ltac:(lia) U0 Ht Ht0) as [ya [xa [a' [b' [c' [d' [_ [EB' [N1 [N2 [N3 [N4 _]]]]]]]]]]]].
  rewrite EB in EB'. injection EB' as <- <- <- <-.
  eexists _, _, _, _. split; [unfold auto_fit; rewrite K; reflexivity|]. split; [lra|]. split; [lra|]. exact K.
Qed.

(** test_extended_shifts returns a verdict for every size, offset and draw: whether both offsets are strictly within nsigma error bars
    of the true ones *)
Theorem C138_extended_shifts :
  forall lio sc e xsh ysh n nsigma re im randn t, (0 < n)%Z -> size_ok e false n n -> one_sigma e t ->
  exists image off x y ex ey verdict,
    make_extended (IZR n) None 2 re im = Ok image /\
    make_offset_extended lio sc (e_fftw e) (amap Fin image) xsh ysh randn 1 false = Ok off /\
    chi2_shift e (amap Fin image) (amap Fin off) (ErrScalar 1) UAuto BWrap 1 false false 2 false true false 512 (11 / 10) false = Ok [RNum x; RNum y; RNum ex; RNum ey] /\
    0 <= ex /\ 0 <= ey /\
    test_extended_shifts lio sc e xsh ysh n false nsigma re im randn = Ok verdict /\
    (verdict = true <-> Rabs (x - xsh) < nsigma * ex /\ Rabs (y - ysh) < nsigma * ey).
Proof.
  intros lio sc e xsh ysh n ns re im rn t Hn Hh Ht. assert (T : truncR (IZR n) = n) by (apply trunc_IZR; lia).
  destruct (C129_make_extended (IZR n) None 2 re im) as [image [E1 [S1 _]]]; rewrite ?T; auto. rewrite T in S1.
  destruct (C118_offset_image lio sc (e_fftw e) (amap Fin image) xsh ysh rn 1 n n S1 Hn Hn) as [off [E2 [S2 _]]].
  destruct (auto_fit_ok e image off 1 n t S1 S2 Hn ltac:(lra) Hh Ht) as [x [y [ex [ey [F [P1 [P2 K]]]]]]].
  exists image, off, x, y, ex, ey. eexists. split; [exact E1|]. split; [exact E2|]. split; [exact K|]. split; [exact P1|]. split; [exact P2|]. split.
  - unfold test_extended_shifts, fit_extended_shifts, fit_error. rewrite E1. cbn [bind]. rewrite E2. cbn [bind]. rewrite F. cbn [bind]. reflexivity.
  - rewrite andb_true_iff, !below_spec. reflexivity.
Qed.
Print Assumptions C138_extended_shifts.

(** it fails whenever an error bar is zero or nsigma is not positive, even if the offsets are exact; and it raises with noise_taper *)
Theorem C138_extended_shifts_refuted :
  (forall lio sc e xsh ysh n nsigma re im randn t, (0 < n)%Z -> size_ok e false n n -> one_sigma e t -> nsigma <= 0 ->
     test_extended_shifts lio sc e xsh ysh n false nsigma re im randn = Ok false) /\
  (forall lio sc e xsh ysh n nsigma re im randn, (0 < n)%Z -> exists x, test_extended_shifts lio sc e xsh ysh n true nsigma re im randn = Raise x) /\
  (forall lio sc e xsh ysh n nsigma noise re im randn, (0 < n)%Z -> exists x, test_extended_shifts_lownoise lio sc e xsh ysh n true nsigma noise re im randn = Raise x).
Proof.
  split; [|split].
  - intros lio sc e xsh ysh n ns re im rn t Hn Hh Ht Hs.
    destruct (C138_extended_shifts lio sc e xsh ysh n ns re im rn t Hn Hh Ht) as [image [off [x [y [ex [ey [v [_ [_ [_ [P1 [_ [E V]]]]]]]]]]]]].
    rewrite E. destruct v; [|reflexivity]. destruct (proj1 V eq_refl) as [Q _]. exfalso. assert (A := Rabs_pos (x - xsh)). assert (ns * ex <= 0) by nra. lra.
  - intros lio sc e xsh ysh n ns re im rn Hn. unfold test_extended_shifts, fit_extended_shifts. assert (T : truncR (IZR n) = n) by (apply trunc_IZR; lia).
    destruct (C129_make_extended (IZR n) None 2 re im) as [image [E1 _]]; rewrite ?T; auto. rewrite E1. cbn [bind].
    destruct (C118_taper_refuted lio sc (e_fftw e) (amap Fin image) xsh ysh rn 1) as [x E]. exists x. rewrite E. reflexivity.
  - intros lio sc e xsh ysh n ns noise re im rn Hn. unfold test_extended_shifts_lownoise. assert (T : truncR (IZR n) = n) by (apply trunc_IZR; lia).
    destruct (C129_make_extended (IZR n) None 2 re im) as [image [E1 _]]; rewrite ?T; auto. rewrite E1. cbn [bind].
    destruct (C118_taper_refuted lio sc (e_fftw e) (amap Fin image) xsh ysh rn noise) as [x E]. exists x. rewrite E. reflexivity.
Qed.
Print Assumptions C138_extended_shifts_refuted.

(** when the draws add no noise, the offset is a whole number of pixels, the size is odd and no roll reproduces the image, the test
    passes for every nsigma above 1 *)
Theorem C138_noiseless_passes :
  forall lio sc e n nsigma re im randn t image (dy dx : Z), (0 < n)%Z -> Z.odd n = true -> size_ok e false n n -> one_sigma e t -> 1 < nsigma ->
  make_extended (IZR n) None 2 re im = Ok image -> no_symmetry n n (fun y x => get image [y; x]) -> (forall q, randn q = 0) ->
  (2 * Z.abs dy < n)%Z -> (2 * Z.abs dx < n)%Z ->
  test_extended_shifts lio sc e (IZR dx) (IZR dy) n false nsigma re im randn = Ok true.
Proof.
  intros lio sc e n ns re im rn t image dy dx Hn On Hh Ht Hs E HN HR By Bx. assert (T : truncR (IZR n) = n) by (apply trunc_IZR; lia).
  destruct (C138_extended_shifts lio sc e (IZR dx) (IZR dy) n ns re im rn t Hn Hh Ht) as [image' [off [x [y [ex [ey [v [E1 [E2 [K [P1 [P2 [Et V]]]]]]]]]]]]].
  rewrite E in E1. injection E1 as <-. rewrite Et. f_equal. apply V.
  destruct (C129_make_extended (IZR n) None 2 re im) as [image' [E1 [S1 _]]]; rewrite ?T; auto. rewrite E in E1. injection E1 as <-. rewrite T in S1.
  destruct (C118_offset_image lio sc (e_fftw e) (amap Fin image) (IZR dx) (IZR dy) rn 1 n n S1 Hn Hn) as [off' [E2' [S2 V2]]]. rewrite E2 in E2'. injection E2' as <-.
  assert (ROLL : is_roll (amap Fin image) (amap Fin off) n n dy dx).
  { split; [exact S1|]. split; [exact S2|]. intros i j Hi Hj. cbn [amap get]. f_equal. rewrite V2, HR by auto. rewrite fshift_int by auto. unfold px. cbn [amap get]. ring. }
  destruct (C137_error_bars_cover_exact_roll e (amap Fin image) (amap Fin off) (ErrScalar 1) 1 UAuto 1 false false 2 512 (11 / 10) false n n dy dx t ROLL)
    as [x' [y' [ex' [ey' [K' [X [Y Z]]]]]]]; auto; try (cbn; lia); try (right; split; [reflexivity|lra]).
  rewrite K in K'. injection K' as <- <- <- <-. destruct (Z eq_refl eq_refl) as [Z1 [Z2 _]]. split; nra.
Qed.
Print Assumptions C138_noiseless_passes.

(** for odd sizes make_extended can return any non-negative image: no draw is excluded by the way the image is made *)
Theorem C138_every_image_is_reachable :
  forall n powerlaw (f : Z -> Z -> R), (0 < n)%Z -> Z.odd n = true -> (forall y x, 0 <= f y x) ->
  exists re im image, make_extended (IZR n) None powerlaw re im = Ok image /\ shape image = [n; n] /\
    forall y x, (0 <= y < n)%Z -> (0 <= x < n)%Z -> get image [y; x] = f y x.
Proof.
  intros n p f Hn On Hf. assert (T : truncR (IZR n) = n) by (apply trunc_IZR; lia). assert (Hp := pos2 n n Hn Hn).
  set (F := fun q => RtoC (f ((fst (ix2 q) + n / 2) mod n)%Z ((snd (ix2 q) + n / 2) mod n)%Z)).
  set (A := fun k l => dft [n; n] F [k; l]).
  set (w := fun k l : Z => Rpower ((IZR k - middle n) ^ 2 + (IZR l - middle n) ^ 2) (- p / 4)).
  assert (W : forall k l, w k l <> 0) by (intros k l; unfold w, Rpower; assert (Q := exp_pos (- p / 4 * ln ((IZR k - middle n) ^ 2 + (IZR l - middle n) ^ 2))); lra).
  set (re := fun k l => fst (A k l) / w k l). set (im := fun k l => snd (A k l) / w k l).
  assert (AM : forall k l, P_testing3.amplitude n n p re im k l = A k l).
  { intros k l. unfold P_testing3.amplitude. cbv zeta. fold (w k l). assert (Z := Z.odd_spec n). apply Z in On. destruct On as [h Eh].
    assert (M : IZR k - middle n = IZR (2 * (k - h) - 1) / 2).
    { unfold middle. replace (Z.even n) with false by (rewrite Eh, Z.even_add, Z.even_mul; reflexivity). rewrite Eh, !minus_IZR, plus_IZR, !mult_IZR, minus_IZR. lra. }
    destruct (Req_EM_T _ 0) as [E0|_].
    - exfalso. assert (Q1 := pow2_ge_0 (IZR k - middle n)). assert (Q2 := pow2_ge_0 (IZR l - middle n)).
      assert (E1 : (IZR k - middle n) ^ 2 = 0) by lra. apply Rmult_integral in E1. rewrite Rmult_1_r in E1. rewrite M in E1.
      assert (E2 : IZR (2 * (k - h) - 1) = 0) by lra. apply eq_IZR_R0 in E2. lia.
    - unfold re, im. destruct (A k l) as [a b]. cbn [fst snd]. unfold Cmult, RtoC. cbn [fst snd]. f_equal; field; apply W. }
  destruct (C129_make_extended (IZR n) None p re im) as [image [E1 [S1 [V _]]]]; rewrite ?T; auto. rewrite T in S1, V.
  exists re, im, image. split; [exact E1|]. split; [exact S1|]. intros y x Hy Hx.
  rewrite (V 0%Z 0%Z y x Hy Hx). clear V.
  transitivity (Cmod (idft [n; n] (dft [n; n] F) [(y - n / 2) mod n; (x - n / 2) mod n]%Z)).
  - f_equal. unfold idft. f_equal. apply sumNC_ext. intros q Hq. apply inb2' in Hq. destruct Hq as [k [l [-> [Hk Hl]]]]. f_equal. cbn [ix2 fst snd].
    rewrite !Z.sub_0_r, !Z.mod_small by auto. rewrite AM. reflexivity.
  - rewrite idft_dft by auto. cbn [modl zipw]. unfold F. cbn [ix2 fst snd]. rewrite !Zmod_mod, !Zplus_mod_idemp_l.
    replace (y - n / 2 + n / 2)%Z with y by ring. replace (x - n / 2 + n / 2)%Z with x by ring. rewrite !Z.mod_small by auto.
    rewrite Cmod_R. apply Rabs_pos_eq, Hf.
Qed.
Print Assumptions C138_every_image_is_reachable.

(** test_shifts returns a verdict for every size, offset and draw: whether chi2_shift, called without an error estimate, finds both
    offsets to within 3 / sqrt (2 pi 9 1000) *)
Theorem C138_shifts :
  forall e xsh ysh n draw t, (0 < n)%Z -> size_ok e false n n -> one_sigma e t ->
  exists im1 im2 x y verdict, let tol := 3 / sqrt (2 * PI * 3 ^ 2 * (1000 / 1)) in
    shape im1 = [n; n] /\ shape im2 = [n; n] /\
    (forall i j, get im1 [i; j] = gaussian 1000 3 (IZR (i - 50)) (IZR (j - 50))) /\
    (forall i j, get im2 [i; j] = draw i j * 1 + gaussian 1000 3 (IZR (i - 50) - ysh) (IZR (j - 50) - xsh)) /\
    chi2_shift e (amap Fin im1) (amap Fin im2) ErrNone UAuto BWrap 1 false false 2 false false false 512 (11 / 10) false = Ok [RNum x; RNum y] /\
    test_shifts e xsh ysh n draw = Ok verdict /\ (verdict = true <-> Rabs (x - xsh) < tol /\ Rabs (y - ysh) < tol).
Proof.
  intros e xsh ysh n dr t Hn Hh Ht. assert (T : truncR (IZR n) = n) by (apply trunc_IZR; lia).
  destruct (C128_offset_images xsh ysh (IZR n) 3 1000 1 50 50 dr) as [i1 [i2 [tol [E [S1 [S2 [V1 [V2 [TP _]]]]]]]]]; rewrite ?T; try lia; try lra. rewrite T in S1, S2.
  destruct TP as [tv [-> [Et _]]]; [lra|].
  destruct (C43_full_result e (amap Fin i1) (amap Fin i2) ErrNone UAuto 1 false false 2 false false 512 (11 / 10) false n n t S1 S2 Hn Hn I Hh ltac:(cbn; lia) Ht)
    as [c [t1 [t2 [t3 [ym [xm [u [s1 [s2 [xv [yv [ups [i [j [xl [xh [yl [yh [_ [_ [FG [_ [_ [S3 [_ [AF [EB K]]]]]]]]]]]]]]]]]]]]]]]]]]].
  cbn [app] in K. eexists i1, i2, _, _, _. cbv zeta. split; [exact S1|]. split; [exact S2|]. split; [exact V1|]. split; [exact V2|]. split; [exact K|]. split.
  - unfold test_shifts. rewrite E. cbn [bind]. rewrite K. cbn [bind]. reflexivity.
  - rewrite andb_true_iff, !ltn_spec, Et. reflexivity.
Qed.
Print Assumptions C138_shifts.

(** test_issue_60: without allow_huge it passes exactly for images whose padded transform exceeds the limit; with allow_huge exactly
    when both offsets are within the tolerance *)
Theorem C138_issue_60 :
  forall e n xsh ysh draw t, (0 < n)%Z -> one_sigma e t ->
  (exists verdict, test_issue_60 e false n xsh ysh draw = Ok verdict /\ (verdict = true <-> (e_gb e < 16 * (n * n))%Z)) /\
  (exists im1 im2 x y verdict, let tol := 3 / sqrt (2 * PI * 3 ^ 2 * (1000 / 1)) in
     make_offset_images xsh ysh (IZR n) 3 1000 1 (PInt 50) (PInt 50) draw = Ok (im1, im2, Fin tol) /\
     chi2_shift e (amap Fin im1) (amap Fin im2) ErrNone UAuto BWrap 1 false false 2 false false false 512 (11 / 10) true = Ok [RNum x; RNum y] /\
     test_issue_60 e true n xsh ysh draw = Ok verdict /\ (verdict = true <-> Rabs (x - xsh) < tol /\ Rabs (y - ysh) < tol)).
Proof.
  intros e n xsh ysh dr t Hn Ht. assert (T : truncR (IZR n) = n) by (apply trunc_IZR; lia).
  destruct (C128_offset_images xsh ysh (IZR n) 3 1000 1 50 50 dr) as [i1 [i2 [tol [E [S1 [S2 [V1 [V2 [TP _]]]]]]]]]; rewrite ?T; try lia; try lra. rewrite T in S1, S2.
  destruct TP as [tv [-> [Et _]]]; [lra|]. split.
  - destruct (Z_lt_le_dec (e_gb e) (16 * (n * n))) as [L|L].
    + exists true. split; [|tauto]. unfold test_issue_60. rewrite E. cbn [bind].
      assert (H : chi2_shift e (amap Fin i1) (amap Fin i2) ErrNone UAuto BWrap 1 false false 2 false false false 512 (11 / 10) false = Raise ValueError).
      { unfold chi2_shift, chi2n_map. cbn [amap shape]. rewrite S1, S2. destruct (list_eq_dec Z.eq_dec [n; n] [n; n]) as [_|N]; [|contradiction]. cbn [negb].
        rewrite (correlate2d_huge (e_fftw e) (e_gb e) _ _ 1 false n n); auto. }
      rewrite H. reflexivity.
    + exists false. split; [|split; [discriminate|lia]]. unfold test_issue_60. rewrite E. cbn [bind].
      destruct (C43_full_result e (amap Fin i1) (amap Fin i2) ErrNone UAuto 1 false false 2 false false 512 (11 / 10) false n n t S1 S2 Hn Hn I ltac:(right; exact L) ltac:(cbn; lia) Ht)
        as [c [t1 [t2 [t3 [ym [xm [u [s1 [s2 [xv [yv [ups [i [j [xl [xh [yl [yh [_ [_ [FG [_ [_ [S3 [_ [AF [EB K]]]]]]]]]]]]]]]]]]]]]]]]]]].
      cbn [app] in K. rewrite K. reflexivity.
  - destruct (C43_full_result e (amap Fin i1) (amap Fin i2) ErrNone UAuto 1 false false 2 false false 512 (11 / 10) true n n t S1 S2 Hn Hn I ltac:(left; reflexivity) ltac:(cbn; lia) Ht)
      as [c [t1 [t2 [t3 [ym [xm [u [s1 [s2 [xv [yv [ups [i [j [xl [xh [yl [yh [_ [_ [FG [_ [_ [S3 [_ [AF [EB K]]]]]]]]]]]]]]]]]]]]]]]]]]].
    cbn [app] in K. eexists i1, i2, _, _, _. cbv zeta. rewrite <- Et. split; [exact E|]. split; [exact K|]. split.
    + unfold test_issue_60. rewrite E. cbn [bind]. rewrite K. cbn [bind andb]. reflexivity.
    + rewrite andb_true_iff, !ltn_spec. reflexivity.
Qed.
Print Assumptions C138_issue_60.

(** test_issue19: both assertions; the first certainly holds when the search window holds the true offset and the noise drawn, the
    part lost by np.real (even sizes) and the resolution of the fit together stay below the tolerance *)
Theorem C138_issue19 :
  forall lio sc e xsh ysh n noise re im randn t, (0 < n)%Z -> size_ok e false n n -> one_sigma e t -> noise <> 0 ->
  exists image off map0 t1 t2 t3 ym xm u x y ex ey corrected verdict,
    make_extended (IZR n) None 2 re im = Ok image /\
    make_offset_extended lio sc (e_fftw e) (amap Fin image) xsh ysh randn noise false = Ok off /\
    chi2_shift e (amap Fin image) (amap Fin off) (ErrScalar noise) UAuto BWrap 1 false false 2 false true false 512 (11 / 10) false = Ok [RNum x; RNum y; RNum ex; RNum ey] /\
    shiftnd (e_fftw e) (of_num (amap Fin off)) [- y; - x] 0 1 false false true = Ok (RealArr corrected) /\
    chi2n_map e (amap Fin image) (amap Fin off) (ErrScalar noise) BWrap 1 false false true false false = Ok (Chi2All map0 t1 t2 t3) /\
    is_argmin2 n n (g2 map0) (ym, xm) /\ final_grid e UAuto n n map0 ym xm 512 (11 / 10) 2 u 512 512 /\
    test_issue19 lio sc e xsh ysh n noise re im randn = Ok verdict /\
    let difference := pixel_sum n n (fun i j => Rabs (get corrected [i; j] - get image [i; j])) in
    (verdict = true <-> difference < noise * IZR (n * n) * 2 /\ difference < pixel_sum n n (fun i j => Rabs (get off [i; j] - get image [i; j]))) /\
    (in_window n ym 512 u ysh -> in_window n xm 512 u xsh ->
      difference <= IZR n * (norm2 n n (fun i j => randn [i; j] * noise) + norm2 n n (fun i j => Im (cshift n n (fun a b => get image [a; b]) ysh xsh i j)) +
                             PI / u * norm2 n n (fun a b => get image [a; b]))).
Proof.
  intros lio sc e xsh ysh n noise re im rn t Hn Hh Ht Hs. assert (T : truncR (IZR n) = n) by (apply trunc_IZR; lia).
  destruct (C129_make_extended (IZR n) None 2 re im) as [image [E1 [S1 _]]]; rewrite ?T; auto. rewrite T in S1.
  destruct (C118_offset_image lio sc (e_fftw e) (amap Fin image) xsh ysh rn noise n n S1 Hn Hn) as [off [E2 [S2 _]]].
  destruct (auto_fit_ok e image off noise n t S1 S2 Hn Hs Hh Ht) as [x [y [ex [ey [F [_ [_ K]]]]]]].
  destruct (C118_extended_test lio sc e (amap Fin image) xsh ysh rn noise UAuto 1 false 2 true false 512 (11 / 10) false n n t off S1 Hn Hn Hs Hh ltac:(cbn; lia) Ht E2)
    as [_ [c [t1 [t2 [t3 [ym [xm [u [s1 [s2 [x' [y' [rest [r [F1 [F2 [F3 [F4 [F5 [F6 F7]]]]]]]]]]]]]]]]]]]].
  rewrite K in F4. injection F4 as <- <- <-. assert (F3' := F3). destruct F3' as [-> [-> _]].
  eexists image, off, c, t1, t2, t3, ym, xm, u, x, y, ex, ey, r, _.
  split; [exact E1|]. split; [exact E2|]. split; [exact K|]. split; [exact F5|]. split; [exact F1|]. split; [exact F2|]. split; [exact F3|]. split.
  { unfold test_issue19. rewrite E1. cbn [bind]. rewrite E2. cbn [bind]. rewrite F. cbn [bind]. rewrite F5. cbn [bind]. reflexivity. }
  cbv zeta. change (px (amap Fin image)) with (fun a b => get image [a; b]) in F7. split.
  - rewrite andb_true_iff, !below_spec, S1. cbn [prodZ fold_right]. rewrite Z.mul_1_r. change (pixel_sum n n) with (sum2 n n). rewrite !sum2_sumNR. reflexivity.
  - intros Wy Wx. refine (Rle_trans _ _ _ (F7 Wy Wx) _). right. rewrite mult_IZR, sqrt_square by (apply IZR_le; lia). reflexivity.
Qed.
Print Assumptions C138_issue19.

(** some draws give a bright dot, which no roll reproduces: with them and without noise the test passes.  The verdict of test_issue_60
    for its own size, and for a small image *)
Example C138_nonvacuous :
  let e := Env true 1073741824 true (fun _ _ => Fin 2) in
  (exists re im, test_extended_shifts true true e (IZR (-2)) (IZR 1) 5 false 4 re im (fun _ => 0) = Ok true) /\
  (forall draw, test_issue_60 e false 10000 3 (-7 / 2) draw = Ok true /\ test_issue_60 e false 100 3 (-7 / 2) draw = Ok false).
Proof.
  intros e. assert (O : one_sigma e 2) by (split; [lra|reflexivity]). split.
  - destruct (C138_every_image_is_reachable 5 2 (fun y x => if ((y =? 3) && (x =? 2))%Z then 1 else 0)) as [re [im [image [E [S V]]]]]; [lia|reflexivity|intros y x; destruct (_ && _)%bool; lra|].
    exists re, im. apply (C138_noiseless_passes true true e 5 4 re im (fun _ => 0) 2 image 1 (-2)); auto; try lia; try lra; [right; cbn; lia|].
    intros s t H. apply (dot_no_symmetry 5 5 3 2 ltac:(lia) ltac:(lia) s t). intros y x Hy Hx. specialize (H y x Hy Hx). rewrite !V in H by (auto; apply Z.mod_pos_bound; lia). exact H.
  - intros draw. destruct (proj1 (C138_issue_60 e 10000 3 (-7 / 2) draw 2 ltac:(lia) O)) as [v [-> [_ V]]]. destruct (proj1 (C138_issue_60 e 100 3 (-7 / 2) draw 2 ltac:(lia) O)) as [w [-> [W _]]].
    split; f_equal; [apply V; cbn; lia|]. destruct w; [|reflexivity]. specialize (W eq_refl). cbn in W. lia.
Qed.
