(** C110: cross_correlation_shifts on integer images *)
From Coq Require Import ZArith Lia List Reals Lra Bool.
From Coquelicot Require Import Complex.
From Verif Require Import Base NDim DFT Kernel Py M_fast_ffts M_shift M_scale M_zoom M_downsample M_convolve M_correlate Arg M_chi2 M_xcorr M_intdtype M_intxcorr
  Spec L_shift L_convolve Sum2 Spec2 Spec3 L_correlate L_chi2 L_chi2shift L_fshift L_xcorr P_chi2errors P_chi2map P_intdtype P_xcorr.
Import ListNotations.
Open Scope R_scope.

(** the offsets are those of the float images, under every option; and with zeromean everything is *)
Theorem C110_same_offsets :
  forall e agpy dt1 dt2 im1 im2 er1 er2 maxoff gaussfit return_error zeromean b nthreads use_np allow_huge,
  return_error = false \/ zeromean = true ->
  cross_correlation_shifts_int e agpy dt1 dt2 im1 im2 er1 er2 maxoff gaussfit return_error zeromean b nthreads use_np allow_huge =
  cross_correlation_shifts e agpy (as_float im1) (as_float im2) er1 er2 maxoff gaussfit return_error zeromean b nthreads use_np allow_huge.
Proof. intros e agpy dt1 dt2 im1 im2 er1 er2 mo gf re zm b nt np huge [-> | ->]; [destruct zm|]; reflexivity. Qed.
Print Assumptions C110_same_offsets.

Lemma sumG_IZR n f : IZR (sumG 0%Z Z.add n f) = sumR n (fun i => IZR (f i)).
Proof. unfold sumR, sumG. induction (Z.to_nat n) as [|m IH]; [reflexivity|]. cbn [sum_nat]. rewrite plus_IZR, IH. reflexivity. Qed.
Lemma sumG2_IZR ny nx (f : list Z -> Z) : IZR (sumNG 0%Z Z.add [ny; nx] f) = sum2 ny nx (fun y x => IZR (f [y; x])).
Proof. cbn [sumNG]. rewrite sumG_IZR. unfold sum2. f_equal. apply FunctionalExtensionality.functional_extensionality. intros y. apply sumG_IZR. Qed.

Lemma int_xcorr_eq e agpy dt1 dt2 im1 im2 er1 er2 mo gf nt np huge ny nx :
  shape im1 = [ny; nx] -> shape im2 = [ny; nx] -> (0 < ny)%Z -> (0 < nx)%Z -> size_ok e huge ny nx -> errim_ok er1 ny nx -> errim_ok er2 ny nx ->
  let P1 := prep false (as_float im1) ny nx in let P2 := prep false (as_float im2) ny nx in
  cross_correlation_shifts_int e agpy dt1 dt2 im1 im2 er1 er2 mo gf true false BWrap nt np huge =
  xtail agpy ny nx (fun k l => ccf ny nx P1 P2 ((ny - 1) / 2 - k) ((nx - 1) / 2 - l) / IZR (ny * nx))
    (Some (rows ny nx (emap ny nx (pixel_error ny nx er1 P1) (pixel_error ny nx er2 P2) (fun y x => IZR (int_square dt1 (get im1 [y; x]))) (fun y x => IZR (int_square dt2 (get im2 [y; x]))))))
    (IZR (square_sum_int dt1 [ny; nx] (get im1))) (IZR (square_sum_int dt2 [ny; nx] (get im2))) mo gf true.
Proof.
  intros H1 H2 Hy Hx Hh He1 He2 P1 P2. unfold cross_correlation_shifts_int. rewrite H1, H2.
  destruct (list_eq_dec Z.eq_dec [ny; nx] [ny; nx]) as [_|N]; [|congruence]. cbn [negb]. cbv zeta.
  set (f1 := fun i => IZR (get im1 i)). set (f2 := fun i => IZR (get im2 i)).
  assert (C : forall x y, exists cc, correlate2d (e_fftw e) (e_gb e) (fin_arr [ny; nx] x) (fin_arr [ny; nx] y) BWrap nt np huge = Ok cc /\
     shape cc = [ny; nx] /\ forall k l, (0 <= k < ny)%Z -> (0 <= l < nx)%Z -> g2 cc k l = sum2 ny nx (fun i j => y [i; j] *
        x [(i - (ny - 1) / 2 + k) mod ny; (j - (nx - 1) / 2 + l) mod nx]%Z)).
  { intros x y. exact (correlate2d_wrap (e_fftw e) (e_gb e) (fin_arr [ny; nx] x) (fin_arr [ny; nx] y) nt np huge ny nx eq_refl eq_refl Hy Hx Hh). }
  destruct (C f1 f2) as [cc [Ec [Sc Vc]]]. rewrite Ec. cbn [bind]. cbn [amap shape]. rewrite Sc.
  destruct (list_eq_dec Z.eq_dec [ny; nx] [ny; nx]) as [_|N]; [|congruence]. cbn [negb]. rewrite prodZ_2.
  set (m := g2 (amap (fun x => x / IZR (ny * nx)) cc)).
  set (em := Some (rows ny nx _)).
  transitivity (xtail agpy ny nx m em (IZR (square_sum_int dt1 [ny; nx] (get im1))) (IZR (square_sum_int dt2 [ny; nx] (get im2))) mo gf true).
  - unfold xtail. destruct (argmax2 ny nx m) as [y x]. destruct (Req_EM_T (m y x) 0) as [Z0|Z0]; [reflexivity|].
    destruct mo as [mo|]; [reflexivity|].
    destruct (error_corr_ok e er1 er2 f1 f2 (fun i => IZR (int_square dt1 (get im1 i))) (fun i => IZR (int_square dt2 (get im2 i))) P1 P2
      (fun y x => IZR (int_square dt1 (get im1 [y; x]))) (fun y x => IZR (int_square dt2 (get im2 [y; x]))) nt np huge ny nx Hy Hx Hh He1 He2) as [a [-> Ha]].
    { intros i j Hi Hj. unfold P1, P2. rewrite <- !(zero_mean_prep false) by auto. auto. }
    cbn [bind]. rewrite Ha. reflexivity.
  - apply xtail_ext; auto. intros k l Hk Hl. unfold m. change (g2 (amap (fun x => x / IZR (ny * nx)) cc) k l) with (g2 cc k l / IZR (ny * nx)).
    rewrite Vc by auto. f_equal. unfold ccf. apply sum2_ext. intros i j Hi Hj. unfold P1, P2.
    rewrite <- !(zero_mean_prep false) by (auto; apply Z.mod_pos_bound; auto). cbn [zero_mean as_float amap get nan0]. unfold f1, f2.
    rewrite Rmult_comm. f_equal. f_equal. f_equal. f_equal; f_equal; [|f_equal]; lia.
Qed.

(** the errors are those of the float images if the squares fit in the dtype and their sum in 64 bits *)
Theorem C110_same_errors_when_squares_fit :
  forall e agpy dt1 dt2 im1 im2 er1 er2 maxoff gaussfit nthreads use_np allow_huge ny nx,
  shape im1 = [ny; nx] -> shape im2 = [ny; nx] -> (0 < ny)%Z -> (0 < nx)%Z -> size_ok e allow_huge ny nx -> errim_ok er1 ny nx -> errim_ok er2 ny nx ->
  (0 < bits dt1)%Z -> (0 < bits dt2)%Z ->
  (forall y x, (0 <= y < ny)%Z -> (0 <= x < nx)%Z -> fits dt1 (get im1 [y; x] ^ 2) /\ fits dt2 (get im2 [y; x] ^ 2)) ->
  pixel_sum ny nx (fun y x => IZR (get im1 [y; x]) ^ 2) < 2 ^ 63 -> pixel_sum ny nx (fun y x => IZR (get im2 [y; x]) ^ 2) < 2 ^ 63 ->
  cross_correlation_shifts_int e agpy dt1 dt2 im1 im2 er1 er2 maxoff gaussfit true false BWrap nthreads use_np allow_huge =
  cross_correlation_shifts e agpy (as_float im1) (as_float im2) er1 er2 maxoff gaussfit true false BWrap nthreads use_np allow_huge.
Proof.
  intros e agpy dt1 dt2 im1 im2 er1 er2 mo gf nt np huge ny nx H1 H2 Hy Hx Hs He1 He2 B1 B2 F S1 S2.
  rewrite (int_xcorr_eq e agpy dt1 dt2 im1 im2 er1 er2 mo gf nt np huge ny nx) by auto. rewrite (xcorr_eq _ _ _ _ _ _ _ _ _ _ _ _ _ ny nx) by auto.
  assert (Q : forall dt im, shape im = [ny; nx] -> (0 < bits dt)%Z -> (forall y x, (0 <= y < ny)%Z -> (0 <= x < nx)%Z -> fits dt (get im [y; x] ^ 2)) ->
    pixel_sum ny nx (fun y x => IZR (get im [y; x]) ^ 2) < 2 ^ 63 -> IZR (square_sum_int dt [ny; nx] (get im)) = sqsum ny nx (prep false (as_float im) ny nx)).
  { intros dt im Hi Hb Fi Si. unfold square_sum_int. set (s := sumNG 0%Z Z.add [ny; nx] (fun i => int_square dt (get im i))).
    assert (E : IZR s = pixel_sum ny nx (fun y x => IZR (get im [y; x]) ^ 2)).
    { unfold s. rewrite sumG2_IZR. apply sum2_ext. intros y x HY HX. unfold int_square.
      replace (get im [y; x] * get im [y; x])%Z with (get im [y; x] ^ 2)%Z by ring. rewrite wrapZ_fits by auto. rewrite Z.pow_2_r, mult_IZR. ring. }
    assert (P : 0 <= IZR s) by (rewrite E; apply sum2_nonneg; intros; apply pow2_ge_0).
    assert (S63 : IZR s < IZR (2 ^ 63)) by (rewrite E; change (IZR (2 ^ 63)) with 9223372036854775808; eapply Rlt_le_trans; [exact Si|]; simpl; lra).
    apply (le_IZR 0) in P. apply lt_IZR in S63. rewrite wrapZ_fits.
    - rewrite E. apply sum2_ext. intros y x HY HX. rewrite <- (zero_mean_prep false) by auto. reflexivity.
    - cbn. lia.
    - unfold fits. cbn [signed bits]. destruct (signed dt); lia. }
  rewrite (Q dt1 im1), (Q dt2 im2); auto; try (intros; apply F; auto).
  unfold emap_of. erewrite rows_ext; [reflexivity|]. intros k l Hk Hl. apply emap_ext; auto. intros y x HY HX. split; [reflexivity|]. split; [reflexivity|].
  destruct (F y x HY HX) as [Fa Fb]. unfold int_square. rewrite <- !Z.pow_2_r, !wrapZ_fits by auto. rewrite <- !(zero_mean_prep false) by auto.
  cbn [zero_mean as_float amap get nan0]. rewrite !Z.pow_2_r, !mult_IZR. split; ring.
Qed.
Print Assumptions C110_same_errors_when_squares_fit.

(** *** FALSE otherwise: pixels whose squares all vanish modulo 2^bits *)
Lemma zucker_zero N s2 p d : p <> 0 -> zucker N 0 s2 p d = XNaN.
Proof.
  intros Hp. unfold zucker. assert (Z : 0 / N = 0) by (unfold Rdiv; ring). rewrite Z.
  assert (I1 : xdiv (XF 1) (XF 0) = XInf) by (cbn; destruct (Req_EM_T 0 0); [|congruence]; destruct (Req_EM_T 1 0); [lra|reflexivity]). rewrite I1. cbn [xdiv xmul].
  destruct (Req_EM_T p 0); [contradiction|]. cbn [xmul xdiv]. destruct (Req_EM_T (-1 * N * d) 0); reflexivity.
Qed.
Theorem C110_errors_refuted :
  forall e agpy dt1 dt2 im1 im2 er1 er2 nthreads use_np allow_huge ny nx dy dx,
  is_roll (as_float im1) (as_float im2) ny nx dy dx -> size_ok e allow_huge ny nx -> errim_ok er1 ny nx -> errim_ok er2 ny nx ->
  interior_shift ny dy -> interior_shift nx dx -> no_symmetry ny nx (prep false (as_float im1) ny nx) ->
  (0 < bits dt1)%Z -> (forall y x, (0 <= y < ny)%Z -> (0 <= x < nx)%Z -> (get im1 [y; x] ^ 2) mod 2 ^ bits dt1 = 0)%Z ->
  (exists x y ex ey, cross_correlation_shifts e agpy (as_float im1) (as_float im2) er1 er2 None false true false BWrap nthreads use_np allow_huge = Ok [XF x; XF y; ex; ey]) /\
  cross_correlation_shifts_int e agpy dt1 dt2 im1 im2 er1 er2 None false true false BWrap nthreads use_np allow_huge = Raise ValueError.
Proof.
  intros e agpy dt1 dt2 im1 im2 er1 er2 nt np huge ny nx dy dx Hr Hs He1 He2 Iy Ix Hn Hb Hz.
  assert (By := interior_bounds ny dy Iy). assert (Bx := interior_bounds nx dx Ix). assert (Hy : (0 < ny)%Z) by lia. assert (Hx : (0 < nx)%Z) by lia.
  destruct (C45_roll_result_all_sizes e agpy (as_float im1) (as_float im2) er1 er2 true false nt np huge ny nx dy dx) as [rest [R L]]; auto.
  destruct rest as [|ex [|ey [|z l]]]; try discriminate. split; [do 4 eexists; exact R|].
  destruct Hr as [S1 [S2 _]]. rewrite (xcorr_eq _ _ _ _ _ _ _ _ _ _ _ _ _ ny nx) in R by auto.
  rewrite (int_xcorr_eq e agpy dt1 dt2 im1 im2 er1 er2 None false nt np huge ny nx) by auto.
  set (m := fun k l => _) in *.
  assert (Q : square_sum_int dt1 [ny; nx] (get im1) = 0%Z).
  { unfold square_sum_int. replace (sumNG 0%Z Z.add [ny; nx] (fun i => int_square dt1 (get im1 i))) with 0%Z; [cbn; destruct (signed dt1); reflexivity|].
    apply eq_IZR. rewrite sumG2_IZR. symmetry. apply sum2_const0. intros y x HY HX. unfold int_square, wrapZ, lowest.
    specialize (Hz y x HY HX). rewrite Z.pow_2_r in Hz. apply (IZR_eq _ 0). destruct (signed dt1).
    - assert (P : (2 ^ bits dt1 = 2 * 2 ^ (bits dt1 - 1))%Z) by (rewrite <- Z.pow_succ_r by lia; f_equal; lia). assert (P0 : (0 < 2 ^ (bits dt1 - 1))%Z) by (apply Z.pow_pos_nonneg; lia).
      set (h := (2 ^ (bits dt1 - 1))%Z) in *. rewrite Z.sub_opp_r. rewrite Z.add_mod, Hz, Z.add_0_l by lia. rewrite Z.mod_mod by lia. rewrite Z.mod_small; lia.
    - rewrite Z.sub_0_r, Hz. reflexivity. }
  rewrite Q. unfold xtail in *. destruct (argmax2 ny nx m) as [ymax xmax]. destruct (Req_EM_T (m ymax xmax) 0) as [E|E]; [discriminate|].
  destruct (local_derivs ny nx m ymax xmax) as [[[[[fx fy] fxx] fyy] fxy]|x]; [|discriminate]. cbn [bind]. rewrite zucker_zero by exact E. reflexivity.
Qed.
Print Assumptions C110_errors_refuted.

(** cases: one pixel of 16 on a dark 4 x 4 uint8 image (16^2 = 0 modulo 256); one pixel of 15 *)
Example C110_nonvacuous :
  let im := fun v => mk2 4 4 (fun y x => if (y =? 1)%Z && (x =? 1)%Z then v else 0%Z) in
  is_roll (as_float (im 16%Z)) (as_float (im 16%Z)) 4 4 0 0 /\ interior_shift 4 0 /\ no_symmetry 4 4 (prep false (as_float (im 16%Z)) 4 4) /\
  (forall y x, (get (im 16%Z) [y; x] ^ 2) mod 2 ^ 8 = 0)%Z /\
  (forall y x, fits (IDtype false 8) (get (im 15%Z) [y; x] ^ 2)) /\ pixel_sum 4 4 (fun y x => IZR (get (im 15%Z) [y; x]) ^ 2) < 2 ^ 63.
Proof.
  cbv zeta. split; [split; [reflexivity|]; split; [reflexivity|]; intros y x Hy Hx; rewrite !Z.sub_0_r, !Z.mod_small by auto; reflexivity|].
  split; [unfold interior_shift; cbn; lia|]. split.
  - intros s t H. specialize (H 1%Z 1%Z ltac:(lia) ltac:(lia)).
    set (a := ((1 - s) mod 4)%Z) in *. set (b := ((1 - t) mod 4)%Z) in *.
    assert (A : (0 <= a < 4)%Z) by (apply Z.mod_pos_bound; lia). assert (B : (0 <= b < 4)%Z) by (apply Z.mod_pos_bound; lia).
    rewrite <- !(zero_mean_prep false) in H by (auto; lia). cbn in H.
    destruct (Z.eqb_spec a 1) as [Ea|Ea]; cbn [andb] in H; [|lra]. destruct (Z.eqb_spec b 1) as [Eb|Eb]; [|lra].
    unfold a, b in Ea, Eb. clear - Ea Eb. split; Z.to_euclidean_division_equations; lia.
  - split; [intros y x; cbn [get mk2]; destruct (_ && _)%bool; reflexivity|].
    split; [intros y x; cbn [get mk2]; destruct (_ && _)%bool; unfold fits; cbn; lia|].
    apply (Rle_lt_trans _ (pixel_sum 4 4 (fun _ _ => 225))).
    + apply sum2_le. intros y x Hy Hx. cbn [get mk2]. destruct (_ && _)%bool; cbn; lra.
    + unfold pixel_sum, sum2, sumR, sumG. simpl. lra.
Qed.
