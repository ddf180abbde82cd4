(** C133: two samplings of one scene *)
From Coq Require Import ZArith Lia List Reals Lra Bool.
From Coquelicot Require Import Complex.
From Verif Require Import Base NDim DFT Kernel Num Py Sum2 M_fast_ffts M_shift M_scale M_zoom M_upsample M_convolve M_correlate M_kernel Arg M_chi2 M_xcorr M_register
  Spec L_shift L_scale L_upsample L_convolve Spec2 Spec3 Spec4 L_correlate L_chi2 L_zoom L_register L_register2 L_register3
  L_chi2shift L_fshift P_shift P_scale P_chi2map P_chi2errors P_chi2shift P_chi2shift2 P_register P_register2 P_rounding L_iterzoom2 L_accuracy P_accuracy P_accuracy2 P_rounding10 P_sampled.
Import ListNotations.
Open Scope R_scope.

(** distance between an image and the scene g seen from an origin displaced by (ty, tx) *)
Definition from_scene (ny nx : Z) (f : Z -> Z -> R) (g : list R -> R) (ty tx : R) : R :=
  norm2 ny nx (fun i j => f i j - g [IZR i - ty; IZR j - tx]).

(** the true offset explains the second image up to the deviations of both images from the scene *)
Theorem C133_mismatch :
  forall ny nx f1 f2 g ty tx, (0 < ny)%Z -> (0 < nx)%Z -> band_limited [ny; nx] g ->
  mismatch ny nx f1 f2 ty tx <= from_scene ny nx f1 g 0 0 + from_scene ny nx f2 g ty tx.
Proof.
  intros ny nx f1 f2 g ty tx Hy Hx B. assert (Hp : pos_shape [ny; nx]) by (apply pos2; auto).
  set (a := fun p => RtoC (img2 f2 p)). set (b := fun p => RtoC (g (coord_minus p [ty; tx]))). set (c := fun p => trig_interp [ny; nx] (fun y => RtoC (img2 f1 y)) (coord_minus p [ty; tx])).
  assert (E : mismatch ny nx f1 f2 ty tx = l2 [ny; nx] (fun p => Cminus (a p) (c p))).
  { unfold mismatch, l2, l2sq. rewrite sum2_sumNR. reflexivity. }
  rewrite E. refine (Rle_trans _ _ _ (l2_triangle [ny; nx] a b c) _). rewrite Rplus_comm. apply Rplus_le_compat.
  - assert (S := shift_le [ny; nx] (fun y => img2 f1 y - g (map IZR y)) [ty; tx] Hp eq_refl).
    assert (S2 := shifted_energy [ny; nx] (fun y => RtoC (img2 f1 y - g (map IZR y))) [ty; tx] 0 Hp eq_refl). clear S.
    unfold from_scene, norm2, l2, l2sq. rewrite sum2_sumNR. apply sqrt_le_1_alt. right.
    transitivity (sumNR [ny; nx] (fun y => Cmod (RtoC (img2 f1 y - g (map IZR y))) ^ 2)).
    + rewrite <- S2, sum2_sumNR. apply sum2_ext. intros i j Hi Hj. set (p := [i; j]). unfold shifted.
      rewrite Ropp_0, cis_0, Cmult_1_l, Dn_interp by auto.
      rewrite <- coord_minus_sub. unfold b, c.
      rewrite <- (scene_interp [ny; nx] g (coord_minus p [ty; tx]) Hp B eq_refl), <- ti_minus.
      rewrite <- (Cmod_opp (trig_interp _ (fun y => Cminus _ _) _)). f_equal. f_equal. unfold trig_interp. rewrite <- sumNC_opp. apply sumNC_ext. intros y _. rewrite RtoC_minus. unfold toR. ring.
    + rewrite sum2_sumNR. apply sum2_ext. intros i j Hi Hj. rewrite Cmod_R, pow2_abs. cbn [img2 map]. rewrite !Rminus_0_r. reflexivity.
  - unfold from_scene, norm2, l2, l2sq. rewrite sum2_sumNR. apply sqrt_le_1_alt. right. apply sum2_ext. intros i j Hi Hj. unfold a, b. rewrite <- RtoC_minus, Cmod_R, pow2_abs. reflexivity.
Qed.
Print Assumptions C133_mismatch.

Lemma sqrt_n_pos ny nx : 0 <= sqrt (IZR (ny * nx)). Proof. apply sqrt_pos. Qed.

(** chi2_shift: the error of the returned offset *)
Theorem C133_chi2_shift :
  forall e im1 im2 err s us nthreads use_np nfitted ret_err ret_arr mas mns allow_huge ny nx t g,
  shape im1 = [ny; nx] -> shape im2 = [ny; nx] -> (3 <= ny)%Z -> (3 <= nx)%Z -> size_ok e allow_huge ny nx ->
  (err = ErrNone /\ s = 1 \/ err = ErrScalar s /\ s <> 0) -> grid_given us ny nx mas -> one_sigma e t -> band_limited [ny; nx] g ->
  exists map0 t1 t2 t3 ym xm u s1 s2 x y rest,
    chi2n_map e im1 im2 err BWrap nthreads false use_np true false allow_huge = Ok (Chi2All map0 t1 t2 t3) /\
    is_argmin2 ny nx (g2 map0) (ym, xm) /\ final_grid e us ny nx map0 ym xm mas mns nfitted u s1 s2 /\
    chi2_shift e im1 im2 err us BWrap nthreads use_np false nfitted false ret_err ret_arr mas mns allow_huge = Ok (RNum x :: RNum y :: rest) /\
    forall ty tx, in_window ny ym s1 u ty -> in_window nx xm s2 u tx ->
      let bound := sqrt (IZR (ny * nx)) * (2 * (from_scene ny nx (px im1) g 0 0 + from_scene ny nx (px im2) g ty tx) + PI / u * norm2 ny nx (px im1)) in
      2 * Rabs (sin (PI * (y - ty) / IZR ny)) * Cmod (sumC ny (fun i => sumC nx (fun j => Cmult (RtoC (px im1 i j)) (cis (- (2 * PI * (IZR i / IZR ny))))))) <= bound /\
      2 * Rabs (sin (PI * (x - tx) / IZR nx)) * Cmod (sumC ny (fun i => sumC nx (fun j => Cmult (RtoC (px im1 i j)) (cis (- (2 * PI * (IZR j / IZR nx))))))) <= bound.
Proof.
  intros e im1 im2 err s us nt np nf re ra mas mns huge ny nx t g S1 S2 Hy Hx Hh He Hg Ht B.
  destruct (C116_offset_error e im1 im2 err s us nt np false nf re ra mas mns huge ny nx t S1 S2 Hy Hx Hh He Hg Ht)
    as [map0 [t1 [t2 [t3 [ym [xm [u [s1 [s2 [x [y [rest [F1 [F2 [F3 [F4 F5]]]]]]]]]]]]]]]].
  exists map0, t1, t2, t3, ym, xm, u, s1, s2, x, y, rest. do 4 (split; [assumption|]). intros ty tx Wy Wx bound.
  destruct (F5 ty tx Wy Wx) as [P Q]. change (prep false im1 ny nx) with (px im1) in P, Q. change (prep false im2 ny nx) with (px im2) in P, Q.
  assert (M := C133_mismatch ny nx (px im1) (px im2) g ty tx ltac:(lia) ltac:(lia) B).
  assert (K : sqrt (IZR (ny * nx)) * (2 * mismatch ny nx (px im1) (px im2) ty tx + PI / u * norm2 ny nx (px im1)) <= bound).
  { apply Rmult_le_compat_l; [apply sqrt_pos|]. lra. }
  split; [exact (Rle_trans _ _ _ P K)|exact (Rle_trans _ _ _ Q K)].
Qed.
Print Assumptions C133_chi2_shift.

(** ... and the image shifted back by it: its distance from the first image, and from the scene *)
Theorem C133_corrected :
  forall e im1 im2 err s us nthreads use_np nfitted ret_err ret_arr mas mns allow_huge ny nx t nth' np' g,
  shape im1 = [ny; nx] -> shape im2 = [ny; nx] -> (0 < ny)%Z -> (0 < nx)%Z -> size_ok e allow_huge ny nx ->
  (err = ErrNone /\ s = 1 \/ err = ErrScalar s /\ s <> 0) -> grid_given us ny nx mas -> one_sigma e t -> band_limited [ny; nx] g ->
  exists map0 t1 t2 t3 ym xm u s1 s2 x y rest out,
    chi2n_map e im1 im2 err BWrap nthreads false use_np true false allow_huge = Ok (Chi2All map0 t1 t2 t3) /\
    is_argmin2 ny nx (g2 map0) (ym, xm) /\ final_grid e us ny nx map0 ym xm mas mns nfitted u s1 s2 /\
    chi2_shift e im1 im2 err us BWrap nthreads use_np false nfitted false ret_err ret_arr mas mns allow_huge = Ok (RNum x :: RNum y :: rest) /\
    shift2d (e_fftw e) (of_num im2) (- x) (- y) 0 nth' np' false true = Ok (RealArr out) /\ shape out = [ny; nx] /\
    forall ty tx, in_window ny ym s1 u ty -> in_window nx xm s2 u tx ->
      let D := from_scene ny nx (px im1) g 0 0 + from_scene ny nx (px im2) g ty tx + PI / u * norm2 ny nx (px im1) in
      norm2 ny nx (fun i j => get out [i; j] - px im1 i j) <= D /\
      from_scene ny nx (fun i j => get out [i; j]) g 0 0 <= from_scene ny nx (px im1) g 0 0 + D.
Proof.
  intros e im1 im2 err s us nt np nf re ra mas mns huge ny nx t nth' np' g S1 S2 Hy Hx Hh He Hg Ht B.
  destruct (C116_corrected e im1 im2 err s us nt np nf re ra mas mns huge ny nx t nth' np' S1 S2 Hy Hx Hh He Hg Ht)
    as [map0 [t1 [t2 [t3 [ym [xm [u [s1 [s2 [x [y [rest [out [F1 [F2 [F3 [F4 [F5 [F6 [_ F8]]]]]]]]]]]]]]]]]]]].
  exists map0, t1, t2, t3, ym, xm, u, s1, s2, x, y, rest, out. do 6 (split; [assumption|]). intros ty tx Wy Wx D.
  assert (K := F8 ty tx Wy Wx). assert (M := C133_mismatch ny nx (px im1) (px im2) g ty tx Hy Hx B).
  assert (K1 : norm2 ny nx (fun i j => get out [i; j] - px im1 i j) <= D) by (unfold D; lra). split; [exact K1|].
  refine (Rle_trans _ _ _ _ (Rplus_le_compat_l _ _ _ K1)). unfold from_scene.
  refine (Rle_trans _ _ _ _ (norm2_add ny nx (fun i j => px im1 i j - g [IZR i - 0; IZR j - 0]) (fun i j => get out [i; j] - px im1 i j))).
  right. apply norm2_ext. intros i j _ _. ring.
Qed.
Print Assumptions C133_corrected.

(** register_images *)
Theorem C133_register_images :
  forall has_fftw im1 im2 usfac ret_err maxoff nthreads use_np ny nx g,
  shape im1 = [ny; nx] -> shape im2 = [ny; nx] -> (3 <= ny)%Z -> (3 <= nx)%Z -> mo_ok maxoff -> 2 < usfac -> band_limited [ny; nx] g ->
  exists (a b : Z) x y,
    register_images has_fftw im1 im2 usfac false ret_err false maxoff nthreads use_np = Ok (nums [x; y] ++ err_out ret_err usfac) /\
    (- ny <= a < ny)%Z /\ (- nx <= b < nx)%Z /\
    (forall s t, within maxoff s -> within maxoff t ->
      Cmod (rcc ny nx (px im1) (px im2) (IZR s / 2) (IZR t / 2)) <= Cmod (rcc ny nx (px im1) (px im2) (IZR a / 2) (IZR b / 2))) /\
    forall ty tx, near_coarse ny usfac (IZR a / 2) ty -> near_coarse nx usfac (IZR b / 2) tx ->
      let B := sqrt (IZR (ny * nx)) * (2 * (from_scene ny nx (px im1) g 0 0 + from_scene ny nx (px im2) g ty tx) + PI / usfac * norm2 ny nx (px im1)) in
      let Fy := Cmod (sumC ny (fun i => sumC nx (fun j => Cmult (RtoC (px im1 i j)) (cis (- (2 * PI * (IZR i / IZR ny))))))) in
      let Fx := Cmod (sumC ny (fun i => sumC nx (fun j => Cmult (RtoC (px im1 i j)) (cis (- (2 * PI * (IZR j / IZR nx))))))) in
      let F0 := Rabs (pixel_sum ny nx (px im1)) in
      Rabs (sin (2 * PI * (y - ty) / IZR ny)) * Fy <= B /\
      Rabs (sin (2 * PI * (x - tx) / IZR nx)) * Fx <= B /\
      2 * Rabs (sin (PI * (y - ty) / IZR ny)) * (Fy * F0) <= B * (Fy + F0) /\
      2 * Rabs (sin (PI * (x - tx) / IZR nx)) * (Fx * F0) <= B * (Fx + F0).
Proof.
  intros hf im1 im2 us re mo nt np ny nx g S1 S2 Hy Hx Hm Hu Bg.
  destruct (C117_offset_error hf im1 im2 us re false mo nt np ny nx S1 S2 Hy Hx Hm Hu) as [a [b [x [y [F1 [F2 [F3 [F4 F5]]]]]]]].
  change (prep false im1 ny nx) with (px im1) in F4, F5. change (prep false im2 ny nx) with (px im2) in F4, F5.
  exists a, b, x, y. do 4 (split; [assumption|]). intros ty tx Wy Wx B Fy Fx F0.
  destruct (F5 ty tx Wy Wx) as [P1 [P2 [P3 P4]]].
  assert (M := C133_mismatch ny nx (px im1) (px im2) g ty tx ltac:(lia) ltac:(lia) Bg).
  assert (K : sqrt (IZR (ny * nx)) * (2 * mismatch ny nx (px im1) (px im2) ty tx + PI / us * norm2 ny nx (px im1)) <= B).
  { apply Rmult_le_compat_l; [apply sqrt_pos|]. lra. }
  assert (Y0 : 0 <= Fy) by apply Cmod_ge_0. assert (X0 : 0 <= Fx) by apply Cmod_ge_0. assert (Z0 : 0 <= F0) by apply Rabs_pos.
  split; [|split; [|split]].
  - exact (Rle_trans _ _ _ P1 K).
  - exact (Rle_trans _ _ _ P2 K).
  - refine (Rle_trans _ _ _ P3 (Rmult_le_compat_r _ _ _ _ K)). fold Fy F0. lra.
  - refine (Rle_trans _ _ _ P4 (Rmult_le_compat_r _ _ _ _ K)). fold Fx F0. lra.
Qed.
Print Assumptions C133_register_images.

(** 3 + cos(2 pi (y/5 - 2x/7)) seen twice, the second time displaced by (1/3, -1/4); with upsample_factor=1 every displacement is in the window *)
Lemma whole_window n m t : (0 < n)%Z -> Z.odd n = true -> in_window n m n 1 t.
Proof.
  intros Hn Ho. assert (N0 : 0 < IZR n) by (apply IZR_lt; lia). set (c := IZR ((n - 1) / 2) - IZR m).
  set (k := up ((c - IZR n / 2 - t) / IZR n)). assert (K := archimed ((c - IZR n / 2 - t) / IZR n)). fold k in K.
  assert (Q : (c - IZR n / 2 - t) / IZR n * IZR n = c - IZR n / 2 - t) by (field; lra).
  exists k. unfold grid_shift. rewrite <- Z.negb_odd, Ho. cbn [negb]. rewrite !minus_IZR.
  replace (IZR ((n - 1) / 2) - (IZR m + 0 + (IZR n - 1 - (IZR n - 1) / 2) / 1) - 1 / (2 * 1)) with (c - IZR n / 2) by (unfold c; field).
  replace (IZR ((n - 1) / 2) - (IZR m + 0 + (0 - (IZR n - 1) / 2) / 1) + 1 / (2 * 1)) with (c + IZR n / 2) by (unfold c; field).
  destruct K as [K1 K2]. assert (P1 := Rmult_lt_compat_r (IZR n) _ _ N0 K1). rewrite Q in P1.
  assert (P2 : (IZR k - (c - IZR n / 2 - t) / IZR n) * IZR n <= 1 * IZR n) by (apply Rmult_le_compat_r; lra). rewrite Rmult_minus_distr_r, Q in P2. lra.
Qed.
Example C133_nonvacuous :
  let g := fun p : list R => match p with [y; x] => 3 + cos (2 * PI * (y / 5 - 2 * x / 7)) | _ => 0 end in
  let e := Env false (2 ^ 30) false (fun _ _ => NaN) in
  let im1 := mk2 5 7 (fun i j => Fin (g [IZR i; IZR j])) in let im2 := mk2 5 7 (fun i j => Fin (g [IZR i - 1 / 3; IZR j - - (1 / 4)])) in
  band_limited [5; 7]%Z g /\ from_scene 5 7 (px im1) g 0 0 = 0 /\ from_scene 5 7 (px im2) g (1 / 3) (- (1 / 4)) = 0 /\
  exists x y rest,
    chi2_shift e im1 im2 ErrNone (UInt 1) BWrap 1 true false 2 false true false 512 (11 / 10) false = Ok (RNum x :: RNum y :: rest) /\
    2 * Rabs (sin (PI * (y - 1 / 3) / IZR 5)) * Cmod (sumC 5 (fun i => sumC 7 (fun j => Cmult (RtoC (px im1 i j)) (cis (- (2 * PI * (IZR i / IZR 5))))))) <=
      sqrt (IZR (5 * 7)) * (PI / 1 * norm2 5 7 (px im1)).
Proof.
  intros g e im1 im2. assert (B := proj1 C132_nonvacuous). fold g in B. split; [exact B|].
  assert (Z1 : from_scene 5 7 (px im1) g 0 0 = 0).
  { unfold from_scene, norm2. match goal with |- sqrt ?X = 0 => replace X with 0; [apply sqrt_0|] end. symmetry. apply sum2_const0. intros i j _ _. cbv beta. unfold px, im1. cbn [get mk2 nan0]. rewrite !Rminus_0_r. ring. }
  assert (Z2 : from_scene 5 7 (px im2) g (1 / 3) (- (1 / 4)) = 0).
  { unfold from_scene, norm2. match goal with |- sqrt ?X = 0 => replace X with 0; [apply sqrt_0|] end. symmetry. apply sum2_const0. intros i j _ _. cbv beta. unfold px, im2. cbn [get mk2 nan0]. ring. }
  split; [exact Z1|]. split; [exact Z2|].
  destruct (C133_chi2_shift e im1 im2 ErrNone 1 (UInt 1) 1 true 2 true false 512 (11 / 10) false 5 7 (159358435 / 100000000) g eq_refl eq_refl ltac:(lia) ltac:(lia)
    ltac:(right; cbn; lia) ltac:(left; auto) ltac:(exists 1, 5%Z, 7%Z; cbn; repeat split; lia) ltac:(split; [lra|reflexivity]) B)
    as [map0 [t1 [t2 [t3 [ym [xm [u [s1 [s2 [x [y [rest [F1 [F2 [F3 [F4 F5]]]]]]]]]]]]]]]].
  exists x, y, rest. split; [exact F4|]. cbn in F3. destruct F3 as [-> [_ [-> ->]]].
  destruct (F5 (1 / 3) (- (1 / 4)) (whole_window 5 ym _ ltac:(lia) eq_refl) (whole_window 7 xm _ ltac:(lia) eq_refl)) as [P _].
  rewrite Z1, Z2 in P. refine (Rle_trans _ _ _ P _). right. f_equal. ring.
Qed.
