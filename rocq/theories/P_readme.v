(** C130: the example of README.md, end to end *)
From Coq Require Import ZArith Lia List Reals Lra Bool.
From Coquelicot Require Import Complex.
From Verif Require Import Base NDim DFT Kernel Num Py Sum2 M_fast_ffts M_shift M_scale M_zoom M_upsample M_convolve M_correlate M_kernel Arg M_chi2 M_xcorr M_register M_testing M_testing2
  Spec L_shift L_scale L_upsample L_convolve Spec2 Spec3 Spec4 L_correlate L_chi2 L_zoom L_register L_register2
  L_chi2shift L_fshift P_shift P_chi2map P_chi2errors P_chi2shift P_chi2shift2 P_rounding L_iterzoom2 L_accuracy P_accuracy P_testing P_testing3.
Import ListNotations.
Open Scope R_scope.

Theorem C130_readme_example :
  forall lio sc e imsize powerlaw re im xsh ysh randn noise nthreads use_np mas mns t, let n := truncR imsize in
  (0 < n)%Z -> size_ok e false n n -> (1 <= mas)%Z -> one_sigma e t ->
  exists image off map0 t1 t2 t3 ym xm u x y ex ey corrected,
    make_extended imsize None powerlaw re im = Ok image /\
    make_offset_extended lio sc (e_fftw e) (amap Fin image) xsh ysh randn noise false = Ok off /\
    chi2_shift e (amap Fin image) (amap Fin off) ErrNone UAuto BWrap nthreads use_np false 2 false true false mas mns false = Ok [RNum x; RNum y; RNum ex; RNum ey] /\
    shiftnd (e_fftw e) (of_num (amap Fin off)) [- y; - x] 0 1 false false true = Ok (RealArr corrected) /\ shape corrected = [n; n] /\
    0 <= ex /\ 0 <= ey /\
    (* the coarse minimum and the factor chosen *)
    chi2n_map e (amap Fin image) (amap Fin off) ErrNone BWrap nthreads false use_np true false false = Ok (Chi2All map0 t1 t2 t3) /\
    is_argmin2 n n (g2 map0) (ym, xm) /\ final_grid e UAuto n n map0 ym xm mas mns 2 u mas mas /\
    (in_window n ym mas u ysh -> in_window n xm mas u xsh ->
      norm2 n n (fun i j => get corrected [i; j] - get image [i; j]) <=
        norm2 n n (fun i j => randn [i; j] * noise) +
        norm2 n n (fun i j => Im (cshift n n (fun a b => get image [a; b]) ysh xsh i j)) +
        PI / u * (norm2 n n (fun k l => Cmod (amplitude n n powerlaw re im k l)) / IZR n)) /\
    (Z.odd n = true -> norm2 n n (fun i j => Im (cshift n n (fun a b => get image [a; b]) ysh xsh i j)) = 0).
Proof.
  intros lio sc e imsize p re im xsh ysh rn noise nt np mas mns t n Hn Hh Hm Ht.
  destruct (C129_make_extended imsize None p re im) as [image [E1 [S1 [_ [_ En]]]]]; fold n; auto. fold n in E1, S1, En.
  assert (Si : shape (amap Fin image) = [n; n]) by exact S1.
  destruct (C118_offset_image lio sc (e_fftw e) (amap Fin image) xsh ysh rn noise n n Si Hn Hn) as [off [E2 [S2 _]]].
  assert (So : shape (amap Fin off) = [n; n]) by exact S2.
  destruct (extended_recovered lio sc e (amap Fin image) xsh ysh rn noise ErrNone 1 UAuto nt np 2 true false mas mns false n n t off Si Hn Hn ltac:(left; auto) Hh Hm Ht E2)
    as [L [c [t1 [t2 [t3 [ym [xm [u [s1 [s2 [x [y [rest [r [F1 [F2 [F3 [F4 [F5 [F6 F7]]]]]]]]]]]]]]]]]]]].
  destruct (C43_full_result e (amap Fin image) (amap Fin off) ErrNone UAuto nt np false 2 true false mas mns false n n t Si So Hn Hn I Hh Hm Ht)
    as [c' [t1' [t2' [t3' [ym' [xm' [u' [s1' [s2' [xv [yv [ups [i [j [xl [xh [yl [yh [G1 [G2 [G3 [G4 [G5 [G6 [G7 [G8 [G9 G10]]]]]]]]]]]]]]]]]]]]]]]]]]].
  rewrite F1 in G1. injection G1 as <- <- <- <-. assert (Q := is_argmin2_unique n n (g2 c) _ _ F2 G2). injection Q as <- <-.
  cbn [app] in G10. rewrite F4 in G10. injection G10 as Ex Ey Er.
  pose proof F3 as F3'. cbn [final_grid] in F3'. destruct F3' as [-> [-> [sz [Hsz [Hu Hreg]]]]].
  assert (G3' := G3). destruct G3' as [-> [-> [sz' [Hsz' [Hu' _]]]]].
  assert (U0 : 0 < u') by (rewrite Hu'; assert (Q := Rmax_l 1 (IZR mas / 2 / IZR sz')); lra).
  assert (T := one_sigma_thr e t Ht). destruct T as [T T0].
  destruct (C42_error_bars e ups u' 1 2 mas mas t G6 ltac:(lia) ltac:(lia) U0 T T0) as [ya [xa [a [b [d [f [_ [R1 [R2 [R3 [R4 [R5 _]]]]]]]]]]]].
  rewrite G9 in R1. injection R1 as <- <- <- <-.
  exists image, off, c, t1, t2, t3, ym, xm, u, x, y, ((xl + xh) / 2), ((yl + yh) / 2), r.
  split; [exact E1|]. split; [exact E2|]. split; [rewrite F4, Er; reflexivity|]. split; [exact F5|]. split; [exact F6|]. split; [lra|]. split; [lra|].
  split; [exact F1|]. split; [exact F2|]. split; [exact F3|].
  change (px (amap Fin image)) with (fun a b => get image [a; b]) in F7, L.
  assert (NE : norm2 n n (fun a b => get image [a; b]) = norm2 n n (fun k l => Cmod (amplitude n n p re im k l)) / IZR n).
  { unfold norm2. rewrite En. rewrite mult_IZR. assert (N0 : 0 < IZR n) by (apply IZR_lt; auto).
    rewrite sqrt_div_alt by nra. rewrite sqrt_square by lra. reflexivity. }
  rewrite NE in F7. split; [exact F7|]. intros O. apply L; auto.
Qed.
Print Assumptions C130_readme_example.

(** the automatic window holds every offset within half a pixel of the coarse minimum *)
Lemma auto_window n m mas size u d : (2 <= mas)%Z -> (1 <= size)%Z -> u = Rmax 1 (IZR mas / 2 / IZR size) -> Rabs d <= 1 / 2 ->
  in_window n m mas u (IZR ((n - 1) / 2 - m) + d).
Proof.
  intros Hm Hs Hu Hd. apply Rcomplements.Rabs_le_between in Hd.
  assert (M2 : 2 <= IZR mas) by (apply IZR_le; auto). assert (S1 : 1 <= IZR size) by (apply IZR_le; auto).
  assert (U1 : 1 <= u) by (rewrite Hu; apply Rmax_l).
  assert (U2 : u <= IZR mas / 2).
  { rewrite Hu. apply Rmax_lub; [lra|]. apply (Rmult_le_reg_r (IZR size)); [lra|]. unfold Rdiv at 1. rewrite Rmult_assoc, Rinv_l by lra. rewrite Rmult_1_r. assert (Q := Rmult_le_compat_l (IZR mas / 2) 1 (IZR size)). lra. }
  exists 0%Z. unfold grid_shift. rewrite !minus_IZR. set (c := IZR ((n - 1) / 2)). set (ev := if Z.even n then 1 / 2 else 0).
  assert (EV : 0 <= ev <= 1 / 2) by (unfold ev; destruct (Z.even n); lra).
  assert (H : 1 <= IZR mas / 2 / u) by (apply (Rmult_le_reg_r u); [lra|]; unfold Rdiv at 1; rewrite Rmult_assoc, Rinv_l by lra; lra).
  replace (c - (IZR m + ev + (IZR mas - 1 - (IZR mas - 1) / 2) / u) - 1 / (2 * u)) with (c - IZR m - ev - IZR mas / 2 / u) by (field; lra).
  replace (c - (IZR m + ev + (0 - (IZR mas - 1) / 2) / u) + 1 / (2 * u)) with (c - IZR m - ev + IZR mas / 2 / u) by (field; lra).
  lra.
Qed.

(** so do the conclusions whenever the coarse minimum is the pixel nearest to the true offset *)
Theorem C130_nearest_pixel :
  forall e (map0 : arr R) n ym xm mas mns u ysh xsh dy dx, (2 <= mas)%Z ->
  final_grid e UAuto n n map0 ym xm mas mns 2 u mas mas ->
  ysh = IZR ((n - 1) / 2 - ym) + dy -> xsh = IZR ((n - 1) / 2 - xm) + dx -> Rabs dy <= 1 / 2 -> Rabs dx <= 1 / 2 ->
  in_window n ym mas u ysh /\ in_window n xm mas u xsh.
Proof.
  intros e map0 n ym xm mas mns u ysh xsh dy dx Hm [_ [_ [size [Hs [Hu _]]]]] -> -> Hy Hx. split; apply (auto_window n _ mas size); auto.
Qed.
Print Assumptions C130_nearest_pixel.

Lemma small_window n m mas size u t : (2 <= mas)%Z -> (1 <= size)%Z -> (1 <= n <= 2)%Z -> u = Rmax 1 (IZR mas / 2 / IZR size) -> in_window n m mas u t.
Proof.
  intros Hm Hs Hn Hu. set (w := t - IZR ((n - 1) / 2 - m)). 
  assert (M2 : 2 <= IZR mas) by (apply IZR_le; auto). assert (S1 : 1 <= IZR size) by (apply IZR_le; auto).
  assert (U1 : 1 <= u) by (rewrite Hu; apply Rmax_l).
  assert (U2 : u <= IZR mas / 2).
  { rewrite Hu. apply Rmax_lub; [lra|]. apply (Rmult_le_reg_r (IZR size)); [lra|]. unfold Rdiv at 1. rewrite Rmult_assoc, Rinv_l by lra. rewrite Rmult_1_r. assert (Q := Rmult_le_compat_l (IZR mas / 2) 1 (IZR size)). lra. }
  assert (H : 1 <= IZR mas / 2 / u) by (apply (Rmult_le_reg_r u); [lra|]; unfold Rdiv at 1; rewrite Rmult_assoc, Rinv_l by lra; lra).
  assert (n0 : 1 <= IZR n <= 2) by (split; apply IZR_le; lia).
  set (ev := if Z.even n then 1 / 2 else 0).
  set (k := up ((w + ev + 1) / - IZR n)). assert (K := archimed ((w + ev + 1) / - IZR n)). fold k in K.
  exists k. unfold grid_shift. fold ev. rewrite !minus_IZR.
  replace (IZR ((n - 1) / 2) - (IZR m + ev + (IZR mas - 1 - (IZR mas - 1) / 2) / u) - 1 / (2 * u)) with (IZR ((n - 1) / 2) - IZR m - ev - IZR mas / 2 / u) by (field; lra).
  replace (IZR ((n - 1) / 2) - (IZR m + ev + (0 - (IZR mas - 1) / 2) / u) + 1 / (2 * u)) with (IZR ((n - 1) / 2) - IZR m - ev + IZR mas / 2 / u) by (field; lra).
  assert (Ew : t = w + (IZR ((n - 1) / 2) - IZR m)) by (unfold w; rewrite minus_IZR; ring).
  assert (Q : (w + ev + 1) / - IZR n * IZR n = - (w + ev + 1)) by (field; lra).
  assert (K1 : - (w + ev + 1) < IZR k * IZR n) by (rewrite <- Q; apply Rmult_lt_compat_r; lra).
  assert (K2 : IZR k * IZR n <= - (w + ev + 1) + IZR n) by (rewrite <- Q; assert (Z1 := Rmult_le_compat_r (IZR n) (IZR k - (w + ev + 1) / - IZR n) 1); lra).
  lra.
Qed.

(** the README's call: 100x100, the README's offsets and noise.  And a case in which the window certainly holds the offset:
    2x2 images, any draws *)
Example C130_nonvacuous :
  let e := Env true 4294967296 true (fun _ _ => Fin 2) in
  truncR 100 = 100%Z /\ size_ok e false 100 100 /\ one_sigma e 2 /\
  forall re im randn, exists image off x y ex ey corrected,
    make_extended 2 None 2 re im = Ok image /\
    make_offset_extended true true true (amap Fin image) (476666 / 100000) (- (37 / 3)) randn (1 / 10) false = Ok off /\
    chi2_shift e (amap Fin image) (amap Fin off) ErrNone UAuto BWrap 1 false false 2 false true false 512 (11 / 10) false = Ok [RNum x; RNum y; RNum ex; RNum ey] /\
    shiftnd true (of_num (amap Fin off)) [- y; - x] 0 1 false false true = Ok (RealArr corrected) /\
    exists u, 1 <= u /\
      norm2 2 2 (fun i j => get corrected [i; j] - get image [i; j]) <=
        norm2 2 2 (fun i j => randn [i; j] * (1 / 10)) +
        norm2 2 2 (fun i j => Im (cshift 2 2 (fun a b => get image [a; b]) (- (37 / 3)) (476666 / 100000) i j)) +
        PI / u * (norm2 2 2 (fun k l => Cmod (amplitude 2 2 2 re im k l)) / 2).
Proof.
  intros e. assert (T : forall k : Z, (0 <= k)%Z -> truncR (IZR k) = k).
  { intros k Hk. unfold truncR. destruct (Rle_dec 0 (IZR k)) as [_|N]; [apply floorR_IZR|]. exfalso. apply N. apply IZR_le. lia. }
  assert (O : one_sigma e 2) by (split; [lra|reflexivity]).
  split; [apply T; lia|]. split; [right; cbn; lia|]. split; [exact O|]. intros re im rn.
  destruct (C130_readme_example true true e 2 2 re im (476666 / 100000) (- (37 / 3)) rn (1 / 10) 1 false 512 (11 / 10) 2)
    as [image [off [map0 [t1 [t2 [t3 [ym [xm [u [x [y [ex [ey [cor [E1 [E2 [E3 [E4 [_ [_ [_ [_ [_ [E5 [E6 _]]]]]]]]]]]]]]]]]]]]]]]]]; rewrite ?(T 2%Z) by lia; try lia.
  - right. cbn. lia.
  - exact O.
  - rewrite (T 2%Z) in E5, E6 by lia. exists image, off, x, y, ex, ey, cor. split; [exact E1|]. split; [exact E2|]. split; [exact E3|]. split; [exact E4|].
    exists u. destruct E5 as [_ [_ [size [Hs [Hu _]]]]]. split; [rewrite Hu; apply Rmax_l|]. apply E6; apply (small_window 2 _ 512 size); auto; lia.
Qed.
