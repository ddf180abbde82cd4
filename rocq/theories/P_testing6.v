(** C139: the two remaining accuracy tests: test_shifts with gaussfit=True, test_extended_shifts_lownoise *)
From Coq Require Import ZArith Lia List Reals Lra Bool.
From Coquelicot Require Import Complex.
From Verif Require Import Base NDim DFT Kernel Num Py Sum2 M_fast_ffts M_shift M_scale M_zoom M_upsample M_convolve M_correlate M_kernel Arg M_chi2 M_xcorr M_register M_testing M_testing2 M_testing4 M_testing5
  Spec Spec2 Spec3 Spec4 Spec5 L_chi2 L_xcorr P_chi2map P_chi2errors P_chi2shift P_chi2shift2 P_xcorr P_testing P_testing3 P_testing5.
Import ListNotations.
Open Scope R_scope.

(** the test named gaussfit never fits a Gaussian: its outcome does not depend on the fitter, nor on whether there is one *)
Theorem C139_no_gaussian_is_fitted_refuted :
  forall e fit fit' xsh ysh n draw, test_shifts_gaussfit e fit xsh ysh n draw = test_shifts_gaussfit e fit' xsh ysh n draw.
Proof. reflexivity. Qed.
Print Assumptions C139_no_gaussian_is_fitted_refuted.

(** the first test image has no translational symmetry *)
Lemma test_image_no_symmetry n (im : arr R) : (50 < n)%Z ->
  (forall y x, get im [y; x] = gaussian 1000 3 (IZR (y - 50)) (IZR (x - 50))) -> no_symmetry n n (prep true (amap Fin im) n n).
Proof.
  intros Hn V s t H. specialize (H 50 50 ltac:(lia) ltac:(lia))%Z. unfold prep in H. cbn [amap get] in H. apply Rplus_eq_reg_r in H. rewrite !V in H.
  unfold gaussian in H. apply Rmult_eq_reg_l in H; [|lra]. apply exp_inv in H.
  replace (IZR (50 - 50)) with 0 in H by (rewrite Z.sub_diag; reflexivity).
  set (a := ((50 - s) mod n)%Z) in *. set (b := ((50 - t) mod n)%Z) in *.
  assert (Q : IZR (a - 50) ^ 2 + IZR (b - 50) ^ 2 = 0).
  { unfold Rdiv in H. apply Rmult_eq_reg_r in H; [lra|]. apply Rinv_neq_0_compat. lra. }
  assert (A0 := pow2_ge_0 (IZR (a - 50))). assert (B0 := pow2_ge_0 (IZR (b - 50))).
  assert (Z0 : forall k, IZR k ^ 2 = 0 -> k = 0%Z) by (intros k Hk; apply eq_IZR; simpl in Hk; rewrite Rmult_1_r in Hk; apply Rsqr_0_uniq; exact Hk).
  assert (A : (a = 50)%Z) by (assert (a - 50 = 0)%Z by (apply Z0; lra); lia).
  assert (B : (b = 50)%Z) by (assert (b - 50 = 0)%Z by (apply Z0; lra); lia).
  assert (M : forall u, ((50 - u) mod n = 50 -> u mod n = 0)%Z).
  { intros u Hu. apply Z.mod_divide; [lia|]. exists (- ((50 - u) / n))%Z. assert (D := Z.div_mod (50 - u) n). lia. }
  split; apply M; assumption.
Qed.

Lemma tolerance_small : 0 < 3 / sqrt (2 * PI * 3 ^ 2 * (1000 / 1)) < 1 / 2.
Proof.
  assert (P := PI_RGT_0). assert (P2 := PI2_3_2). set (q := 2 * PI * 3 ^ 2 * (1000 / 1)).
  assert (Q : 6 * 6 < q) by (unfold q; unfold PI2 in *; lra).
  assert (S : 6 < sqrt q) by (rewrite <- (sqrt_square 6) by lra; apply sqrt_lt_1; lra).
  split; [apply Rdiv_lt_0_compat; lra|]. apply (Rmult_lt_reg_r (sqrt q)); [lra|]. unfold Rdiv at 1. rewrite Rmult_assoc, Rinv_l by lra. lra.
Qed.

(** whatever the draws: the test fails unless both offsets are numbers closer to the true ones than the tolerance; it raises what
    cross_correlation_shifts raises, and ValueError when that returns a bare (0, 0) *)
Theorem C139_verdict :
  forall e fit xsh ysh n draw, (0 < n)%Z ->
  exists im1 im2, let tol := 3 / sqrt (2 * PI * 3 ^ 2 * (1000 / 1)) in
    make_offset_images xsh ysh (IZR n) 3 1000 1 (PInt 50) (PInt 50) draw = Ok (im1, im2, Fin tol) /\
    let outcome := test_shifts_gaussfit e fit xsh ysh n draw in
    match cross_correlation_shifts e fit (amap Fin im1) (amap Fin im2) None None None false true true BWrap 1 false false with
    | Ok [x; y; ex; ey] => exists verdict, outcome = Ok verdict /\
        (verdict = true <-> exists a b, x = XF a /\ y = XF b /\ Rabs (a - xsh) < tol /\ Rabs (b - ysh) < tol)
    | Ok _ => outcome = Raise ValueError
    | Raise exc => outcome = Raise exc
    end.
Proof.
  intros e fit xsh ysh n dr Hn. assert (T : truncR (IZR n) = n) by (apply trunc_IZR; lia).
  destruct (C128_offset_images xsh ysh (IZR n) 3 1000 1 50 50 dr) as [i1 [i2 [t0 [E [S1 [S2 [V1 [V2 [TP _]]]]]]]]]; rewrite ?T; try lia; try lra.
  destruct TP as [tv [-> [Et TP]]]; [lra|]. exists i1, i2. cbv zeta. rewrite <- Et. split; [exact E|].
  unfold test_shifts_gaussfit. rewrite E. cbn [bind].
  destruct (cross_correlation_shifts e fit (amap Fin i1) (amap Fin i2) None None None false true true BWrap 1 false false) as [l|exc]; cbn [bind]; [|reflexivity].
  destruct l as [|x [|y [|ex [|ey [|z r]]]]]; try reflexivity.
  exists (close_to x xsh (Fin tv) && close_to y ysh (Fin tv)). split; [reflexivity|]. rewrite andb_true_iff. unfold close_to. split.
  - intros [X Y]. destruct x as [a| |], y as [b| |]; try discriminate. rewrite ltn_spec in X, Y. exists a, b. tauto.
  - intros [a [b [-> [-> [X Y]]]]]. rewrite !ltn_spec. tauto.
Qed.
Print Assumptions C139_verdict.

(** given a perfect pair (the second image is the first one rolled by the offset tested), the test passes for even sizes and fails for
    odd ones *)
Theorem C139_perfect_pair :
  forall e fit n (dy dx : Z) draw im1 im2 tol, (50 < n)%Z -> size_ok e false n n -> interior_shift n dy -> interior_shift n dx ->
  make_offset_images (IZR dx) (IZR dy) (IZR n) 3 1000 1 (PInt 50) (PInt 50) draw = Ok (im1, im2, tol) ->
  is_roll (amap Fin im1) (amap Fin im2) n n dy dx ->
  test_shifts_gaussfit e fit (IZR dx) (IZR dy) n draw = Ok (Z.even n).
Proof.
  intros e fit n dy dx dr im1 im2 tol Hn Hh Iy Ix E HR. assert (T : truncR (IZR n) = n) by (apply trunc_IZR; lia).
  destruct (C128_offset_images (IZR dx) (IZR dy) (IZR n) 3 1000 1 50 50 dr) as [i1 [i2 [t0 [E' [S1 [S2 [V1 [V2 [TP _]]]]]]]]]; rewrite ?T; try lia; try lra.
  destruct TP as [tv [Et0 [Et TP]]]; [lra|]. subst t0. rewrite E in E'. injection E' as -> -> ->.
  destruct (C45_roll_result_all_sizes e fit (amap Fin i1) (amap Fin i2) None None true true 1 false false n n dy dx HR Hh I I Iy Ix) as [rest [K L]].
  { apply test_image_no_symmetry; auto. }
  destruct rest as [|a [|b [|c r]]]; try discriminate L.
  unfold test_shifts_gaussfit. rewrite E. cbn [bind]. rewrite K. cbn [bind close_to]. f_equal.
  assert (TS := tolerance_small). rewrite <- Et in TS. unfold half_if_odd. rewrite <- Z.negb_odd. destruct (Z.odd n); cbn [negb ltn].
  - replace (IZR dx + 1 / 2 - IZR dx) with (1 / 2) by ring. rewrite (Rabs_right (1 / 2)) by lra. destruct (Rlt_dec (1 / 2) tv); [lra|reflexivity].
  - replace (IZR dx + 0 - IZR dx) with 0 by ring. replace (IZR dy + 0 - IZR dy) with 0 by ring. rewrite Rabs_R0. destruct (Rlt_dec 0 tv); [reflexivity|lra].
Qed.
Print Assumptions C139_perfect_pair.

(** for every size above 50 and every interior offset there are draws that make a perfect pair *)
Theorem C139_perfect_pairs_exist :
  forall n (dy dx : Z), (50 < n)%Z ->
  exists draw im1 im2 tol, make_offset_images (IZR dx) (IZR dy) (IZR n) 3 1000 1 (PInt 50) (PInt 50) draw = Ok (im1, im2, tol) /\
    is_roll (amap Fin im1) (amap Fin im2) n n dy dx.
Proof.
  intros n dy dx Hn. assert (T : truncR (IZR n) = n) by (apply trunc_IZR; lia).
  set (dr := fun y x : Z => gaussian 1000 3 (IZR ((y - dy) mod n - 50)) (IZR ((x - dx) mod n - 50)) - gaussian 1000 3 (IZR (y - 50) - IZR dy) (IZR (x - 50) - IZR dx)).
  destruct (C128_offset_images (IZR dx) (IZR dy) (IZR n) 3 1000 1 50 50 dr) as [i1 [i2 [tol [E [S1 [S2 [V1 [V2 _]]]]]]]]; rewrite ?T; try lia; try lra. rewrite T in S1, S2.
  exists dr, i1, i2, tol. split; [exact E|]. split; [exact S1|]. split; [exact S2|]. intros y x Hy Hx. cbn [amap get]. f_equal. rewrite V1, V2. unfold dr. ring.
Qed.
Print Assumptions C139_perfect_pairs_exist.

(** test_extended_shifts_lownoise returns a verdict for every size, offset and draw and every nonzero noise: both offsets strictly within
    nsigma error bars of the true ones, and both error bars within 0.03 of 0.08 times the noise *)
Theorem C139_lownoise :
  forall lio sc e xsh ysh n nsigma noise re im randn t, (0 < n)%Z -> noise <> 0 -> size_ok e false n n -> one_sigma e t ->
  exists image off x y ex ey verdict,
    make_extended (IZR n) None 2 re im = Ok image /\
    make_offset_extended lio sc (e_fftw e) (amap Fin image) xsh ysh randn noise false = Ok off /\
    chi2_shift e (amap Fin image) (amap Fin off) (ErrScalar noise) UAuto BWrap 1 false false 2 false true false 512 (11 / 10) false = Ok [RNum x; RNum y; RNum ex; RNum ey] /\
    0 <= ex /\ 0 <= ey /\
    test_extended_shifts_lownoise lio sc e xsh ysh n false nsigma noise re im randn = Ok verdict /\
    (verdict = true <-> Rabs (x - xsh) < nsigma * ex /\ Rabs (y - ysh) < nsigma * ey /\
                        8 / 100 * noise - 3 / 100 < ex < 8 / 100 * noise + 3 / 100 /\ 8 / 100 * noise - 3 / 100 < ey < 8 / 100 * noise + 3 / 100).
Proof.
  intros lio sc e xsh ysh n ns noise re im rn t Hn Hz Hh Ht. assert (T : truncR (IZR n) = n) by (apply trunc_IZR; lia).
  destruct (C129_make_extended (IZR n) None 2 re im) as [image [E1 [S1 _]]]; rewrite ?T; auto. rewrite T in S1.
  destruct (C118_offset_image lio sc (e_fftw e) (amap Fin image) xsh ysh rn noise n n S1 Hn Hn) as [off [E2 [S2 _]]].
  destruct (auto_fit_ok e image off noise n t S1 S2 Hn Hz Hh Ht) as [x [y [ex [ey [F [P1 [P2 K]]]]]]].
  exists image, off, x, y, ex, ey. eexists. split; [exact E1|]. split; [exact E2|]. split; [exact K|]. split; [exact P1|]. split; [exact P2|]. split.
  - unfold test_extended_shifts_lownoise, fit_error. rewrite E1. cbn [bind]. rewrite E2. cbn [bind]. rewrite F. cbn [bind]. reflexivity.
  - assert (AB : forall u w, Rabs (u - w) < 3 / 100 <-> w - 3 / 100 < u < w + 3 / 100) by (intros u w; split; [intros Q; apply Rabs_def2 in Q; lra|intros Q; apply Rabs_def1; lra]).
    rewrite !andb_true_iff, !below_spec, !AB. tauto.
Qed.
Print Assumptions C139_lownoise.

(** so the test cannot pass with a noise level of -0.375 or less, which chi2_shift accepts: no error bar is negative *)
Corollary C139_lownoise_refuted :
  forall lio sc e xsh ysh n nsigma noise re im randn t, (0 < n)%Z -> noise <= - (3 / 8) -> size_ok e false n n -> one_sigma e t ->
  test_extended_shifts_lownoise lio sc e xsh ysh n false nsigma noise re im randn = Ok false.
Proof.
  intros lio sc e xsh ysh n ns noise re im rn t Hn Hz Hh Ht.
  destruct (C139_lownoise lio sc e xsh ysh n ns noise re im rn t Hn ltac:(lra) Hh Ht) as [image [off [x [y [ex [ey [v [_ [_ [_ [P1 [P2 [-> V]]]]]]]]]]]]].
  f_equal. destruct v; [|reflexivity]. destruct (proj1 V eq_refl) as [_ [_ [Q _]]]. lra.
Qed.
Print Assumptions C139_lownoise_refuted.

(** sizes 100 and 101, offset (1, 8): with the right draws the first test passes and the second fails *)
Example C139_nonvacuous :
  let e := Env true 4294967296 true (fun _ _ => Fin 2) in
  (exists draw, test_shifts_gaussfit e None (IZR 1) (IZR 8) 100 draw = Ok true) /\ (exists draw, test_shifts_gaussfit e None (IZR 1) (IZR 8) 101 draw = Ok false) /\
  size_ok e false 99 99 /\ one_sigma e 2.
Proof.
  intros e. split; [|split; [|split; [right; cbn; lia|split; [lra|reflexivity]]]].
  - destruct (C139_perfect_pairs_exist 100 8 1 ltac:(lia)) as [dr [i1 [i2 [tol [E R]]]]]. exists dr.
    apply (C139_perfect_pair e None 100 8 1 dr i1 i2 tol); auto; try lia; try (unfold interior_shift; cbn; lia). right. cbn. lia.
  - destruct (C139_perfect_pairs_exist 101 8 1 ltac:(lia)) as [dr [i1 [i2 [tol [E R]]]]]. exists dr.
    apply (C139_perfect_pair e None 101 8 1 dr i1 i2 tol); auto; try lia; try (unfold interior_shift; cbn; lia). right. cbn. lia.
Qed.
