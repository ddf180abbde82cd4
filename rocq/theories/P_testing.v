(** C118: the helpers of tests/registration_testing.py, and its accuracy tests for all inputs *)
From Coq Require Import ZArith Lia List Reals Lra Bool.
From Coquelicot Require Import Complex.
From Verif Require Import Base NDim DFT Kernel Num Py Sum2 M_fast_ffts M_shift M_scale M_zoom M_upsample M_convolve M_correlate Arg M_chi2 M_kernel M_testing
  Spec L_shift L_scale L_upsample L_convolve Spec2 Spec3 Spec4 L_correlate L_chi2 L_zoom L_register L_register2
  L_chi2shift L_fshift P_shift P_upsample P_chi2map P_chi2errors P_chi2shift P_chi2shift2 P_kernel P_rounding L_iterzoom2 L_accuracy P_accuracy.
Import ListNotations.
Open Scope R_scope.

Lemma csum2_R ny nx (f : Z -> Z -> R) : csum2 ny nx (fun i j => RtoC (f i j)) = RtoC (pixel_sum ny nx f).
Proof. unfold csum2, pixel_sum. rewrite <- sumC_RtoC. apply sumC_ext. intros i _. apply sumC_RtoC. Qed.
Lemma csum2_ext ny nx (f g : Z -> Z -> C) : (forall i j, (0 <= i < ny)%Z -> (0 <= j < nx)%Z -> f i j = g i j) -> csum2 ny nx f = csum2 ny nx g.
Proof. intros H. unfold csum2. apply sumC_ext. intros i Hi. apply sumC_ext. intros j Hj. auto. Qed.

(** the error map of the helper *)
Definition t_err (err : option (arr R)) (y x : Z) : R := match err with Some e => get e [y; x] | None => 1 end.

(** whole-pixel offsets: chi^2 of |im2| against the rolled im1 *)
Theorem C118_chi2_helper :
  forall has_fftw (im1 im2 : arr num) (dx dy : Z) err upsample ny nx,
  shape im1 = [ny; nx] -> shape im2 = [ny; nx] -> (0 < ny)%Z -> (0 < nx)%Z -> upsample <= 1 ->
  (forall e, err = Some e -> shape e = [ny; nx]) -> (forall y x, (0 <= y < ny)%Z -> (0 <= x < nx)%Z -> t_err err y x <> 0) ->
  t_chi2 has_fftw im1 im2 (IZR dx) (IZR dy) err upsample = Ok (RtoC (chi2_of ny nx (px im1) (fun y x => Rabs (px im2 y x)) (t_err err) dy dx)).
Proof.
  intros fw im1 im2 dx dy err us ny nx H1 H2 Hy Hx Hu He Hn. unfold t_chi2. cbn [amap shape]. rewrite H1, H2. cbn [amap shape].
  set (err' := match err with Some e => e | None => amap (fun v => v * 0 + 1) (amap nan0 im2) end).
  assert (S' : shape err' = [ny; nx]) by (unfold err'; destruct err; [apply He; reflexivity|exact H2]).
  assert (G' : forall y x, get err' [y; x] = t_err err y x) by (intros; unfold err', t_err; destruct err; [reflexivity|cbn [amap get]; ring]).
  fold (amap nan0 im2). fold err'. rewrite S', !Z.eqb_refl. cbn [andb negb]. destruct (Rlt_dec 1 us); [lra|].
  assert (Hp : pos_shape [ny; nx]) by (apply pos2; auto).
  assert (SH : forall a : arr R, shape a = [ny; nx] -> exists r, shiftnd fw (of_R a) [- IZR dy; - IZR dx] 0 1 false false true = Ok (RealArr r) /\
     forall i j, (0 <= i < ny)%Z -> (0 <= j < nx)%Z -> get r [i; j] = get a [((i + dy) mod ny)%Z; ((j + dx) mod nx)%Z]).
  { intros a Sa. destruct (shiftnd_ok fw (of_R a) [- IZR dy; - IZR dx] 0 1 false false true) as [r [R1 [R2 R3]]]; [cbn [of_R amap shape]; rewrite Sa; auto|].
    eexists. split; [exact R1|]. intros i j Hi Hj. cbn [amap get]. cbn [of_R amap shape] in R3. rewrite Sa in R3. rewrite R3 by (apply inb2_intro; auto). rewrite fit_offset_id by reflexivity.
    replace [- IZR dy; - IZR dx] with (toR [- dy; - dx]%Z) by (unfold toR; cbn [map]; rewrite !opp_IZR; reflexivity). rewrite shifted_int by (auto; apply inb2_intro; auto).
    rewrite Ropp_0, cis_0, Cmult_1_l. unfold roll_src. cbn. unfold cnan0. cbn. replace (i - - dy)%Z with (i + dy)%Z by lia. replace (j - - dx)%Z with (j + dx)%Z by lia. reflexivity. }
  destruct (SH (amap nan0 im2) H2) as [b [B1 B2]]. destruct (SH err' S') as [s [S1 S2]]. rewrite B1, S1. cbn [bind]. f_equal.
  unfold chi2_of. change (pixel_sum ny nx) with (sum2 ny nx). rewrite <- (sum2_shift ny nx _ dy dx) by auto. change (sum2 ny nx) with (pixel_sum ny nx). rewrite <- csum2_R. apply csum2_ext. intros i j Hi Hj. cbn [np_abs amap get].
  rewrite B2, S2 by auto. cbn [amap get]. rewrite G'.
  replace ((((i + dy) mod ny) - dy) mod ny)%Z with i by (rewrite Zminus_mod_idemp_l; replace (i + dy - dy)%Z with i by lia; rewrite Z.mod_small; lia).
  replace ((((j + dx) mod nx) - dx) mod nx)%Z with j by (rewrite Zminus_mod_idemp_l; replace (j + dx - dx)%Z with j by lia; rewrite Z.mod_small; lia).
  change (nan0 (get im1 [i; j])) with (px im1 i j). change (nan0 (get im2 [((i + dy) mod ny)%Z; ((j + dx) mod nx)%Z])) with (px im2 ((i + dy) mod ny) ((j + dx) mod nx)).
  specialize (Hn ((i + dy) mod ny)%Z ((j + dx) mod nx)%Z ltac:(apply Z.mod_pos_bound; lia) ltac:(apply Z.mod_pos_bound; lia)).
  set (t := t_err err _ _) in *. f_equal.
  assert (T : Rabs t * Rabs t = t * t) by (rewrite <- Rabs_mult; apply Rabs_right; assert (Q := pow2_ge_0 t); cbn in Q; lra). rewrite T. field. auto.
Qed.
Print Assumptions C118_chi2_helper.

(** for non-negative second images it is the value chi2n_map reports for that offset *)
Theorem C118_chi2_helper_is_the_map :
  forall e (im1 im2 : arr num) err upsample nthreads use_np return_all allow_huge ny nx,
  shape im1 = [ny; nx] -> shape im2 = [ny; nx] -> shape err = [ny; nx] -> (0 < ny)%Z -> (0 < nx)%Z -> size_ok e allow_huge ny nx -> upsample <= 1 ->
  (forall y x, (0 <= y < ny)%Z -> (0 <= x < nx)%Z -> get err [y; x] <> 0) -> (forall y x, (0 <= y < ny)%Z -> (0 <= x < nx)%Z -> 0 <= px im2 y x) ->
  exists r, chi2n_map e im1 im2 (ErrArr (amap Fin err)) BWrap nthreads false use_np return_all false allow_huge = Ok r /\
    forall k l, (0 <= k < ny)%Z -> (0 <= l < nx)%Z ->
      t_chi2 (e_fftw e) im1 im2 (IZR ((nx - 1) / 2 - l)) (IZR ((ny - 1) / 2 - k)) (Some err) upsample = Ok (RtoC (g2 (chi2_of_res r) k l)).
Proof.
  intros e im1 im2 err us nt np ra huge ny nx H1 H2 H3 Hy Hx Hh Hu Hn Hpos.
  destruct (C34_error_array e im1 im2 (amap Fin err) nt false np ra huge ny nx H1 H2 H3 Hy Hx Hh) as [r [E [_ V]]]; [intros; unfold px; cbn [amap get]; apply Hn; auto|].
  exists r. split; [exact E|]. intros k l Hk Hl. rewrite (C118_chi2_helper (e_fftw e) im1 im2 _ _ (Some err) us ny nx); auto; [|intros e0 [= <-]; auto].
  rewrite V by auto. f_equal. f_equal. unfold chi2_of. apply sum2_ext. intros i j Hi Hj.
  change (prep false im2 ny nx) with (px im2). change (prep false im1 ny nx) with (px im1). rewrite Rabs_right by (apply Rle_ge; auto). reflexivity.
Qed.
Print Assumptions C118_chi2_helper_is_the_map.

(** not for second images with negative pixels: an image does not even match itself *)
Theorem C118_chi2_helper_refuted :
  exists im : arr num, shape im = [2; 2]%Z /\ forall has_fftw, exists v, t_chi2 has_fftw im im 0 0 None 1 = Ok (RtoC v) /\ v = 4.
Proof.
  set (im := mk2 2 2 (fun y x => Fin (if ((y =? 0) && (x =? 0))%Z then -1 else 0))). exists im. split; [reflexivity|]. intros fw. eexists. split.
  - apply (C118_chi2_helper fw im im 0 0 None 1 2 2); auto; try lia; try lra. intros e [=]. intros; cbn; lra.
  - unfold chi2_of, pixel_sum. rewrite !(sumR_S 1), (sumR_S 0), sumR_0 by lia. rewrite !(sumR_S 1), !(sumR_S 0), !sumR_0 by lia. unfold px, im, t_err. cbn -[Rabs].
    rewrite Rabs_left by lra. rewrite Rabs_R0. field.
Qed.
Print Assumptions C118_chi2_helper_refuted.

(** upsampled: only the nodes (r/u, c/u), r < ny, c < nx, are compared: the corner of size (ny/u, nx/u) *)
Theorem C118_chi2_helper_upsampled :
  forall has_fftw (im1 im2 : arr num) dx dy err upsample ny nx,
  shape im1 = [ny; nx] -> shape im2 = [ny; nx] -> (0 < ny)%Z -> (0 < nx)%Z -> Z.odd ny = true -> Z.odd nx = true -> 1 < upsample ->
  (forall e, err = Some e -> shape e = [ny; nx]) ->
  let I (f : Z -> Z -> R) y x := trig_interpR [ny; nx] (img2 f) [y; x] in
  (forall r c, (0 <= r < ny)%Z -> (0 <= c < nx)%Z -> I (t_err err) (IZR r / upsample + dy) (IZR c / upsample + dx) <> 0) ->
  t_chi2 has_fftw im1 im2 dx dy err upsample =
    Ok (RtoC (pixel_sum ny nx (fun r c => ((I (px im1) (IZR r / upsample) (IZR c / upsample) - I (px im2) (IZR r / upsample + dy) (IZR c / upsample + dx)) /
                                           I (t_err err) (IZR r / upsample + dy) (IZR c / upsample + dx)) ^ 2))).
Proof.
  intros fw im1 im2 dx dy err u ny nx H1 H2 Hy Hx Oy Ox Hu He I Hn. unfold t_chi2. cbn [amap shape]. rewrite H1, H2. cbn [amap shape].
  set (err' := match err with Some e => e | None => amap (fun v => v * 0 + 1) (amap nan0 im2) end).
  assert (S' : shape err' = [ny; nx]) by (unfold err'; destruct err; [apply He; reflexivity|exact H2]).
  assert (G' : forall y x, get err' [y; x] = t_err err y x) by (intros; unfold err', t_err; destruct err; [reflexivity|cbn [amap get]; ring]).
  fold (amap nan0 im1) (amap nan0 im2). fold err'. rewrite S', !Z.eqb_refl. cbn [andb negb]. destruct (Rlt_dec 1 u) as [Hu1|]; [|lra].
  assert (Hp : pos_shape [ny; nx]) by (apply pos2; auto).
  assert (UP : forall (a : arr R) f xs ys, shape a = [ny; nx] -> (forall y x, get a [y; x] = f y x) -> exists r, upsample_image fw (RtoCa a) u (OSeq [IZR ny; IZR nx]) 1 false xs ys = Ok r /\
     forall i j, get r [i; j] = RtoC (I f ((IZR i - ys) / u) ((IZR j - xs) / u))).
  { intros a f xs ys Sa Ga. destruct (upsample_image_ok fw (RtoCa a) ny nx u (OSeq [IZR ny; IZR nx]) 1 false xs ys (IZR ny) (IZR nx)) as [r [R1 [R2 R3]]]; auto; [lra|].
    exists r. split; [exact R1|]. intros i j. change (get r [i; j]) with (g2 r i j). rewrite R3.
    rewrite (interpN_ext [ny; nx] _ (fun y => RtoC (img2 f y))).
    2:{ intros y Hin. apply inb2 in Hin. destruct Hin as [v [w [-> _]]]. cbn [RtoCa amap get img2]. rewrite Ga. reflexivity. }
    unfold I. rewrite <- interpN_realpart by auto.
    assert (IM : Im (interpN [ny; nx] (fun y => RtoC (img2 f y)) [(IZR i - ys) / u; (IZR j - xs) / u]) = 0).
    { unfold interpN. rewrite Im_sumNC. apply sumNR_const0. intros y Hyy.
      assert (Hd : Im (Dn [ny; nx] (subR (toR y) [(IZR i - ys) / u; (IZR j - xs) / u])) = 0).
      { apply Dn_real_odd; [repeat constructor; auto|repeat constructor; auto|]. apply inb_length in Hyy. unfold subR, toR. rewrite zipw_length, map_length, Hyy. reflexivity. }
      unfold Cmult, RtoC, Im in *; simpl in *. rewrite Hd. ring. }
    set (z := interpN _ _ _) in *. destruct z as [p q]. unfold Im in IM. cbn in IM. subst q. reflexivity. }
  destruct (UP (amap nan0 im1) (px im1) 0 0 H1 ltac:(reflexivity)) as [a [A1 A2]].
  destruct (UP (amap nan0 im2) (px im2) (- dx * u) (- dy * u) H2 ltac:(reflexivity)) as [b [B1 B2]].
  destruct (UP err' (t_err err) (- dx * u) (- dy * u) S' G') as [s [S1 S2]].
  rewrite A1, B1, S1. cbn [bind]. f_equal. rewrite <- csum2_R. apply csum2_ext. intros i j Hi Hj. rewrite A2, B2, S2. specialize (Hn i j Hi Hj).
  replace ((IZR i - 0) / u) with (IZR i / u) by (field; lra). replace ((IZR j - 0) / u) with (IZR j / u) by (field; lra).
  replace ((IZR i - - dy * u) / u) with (IZR i / u + dy) by (field; lra). replace ((IZR j - - dx * u) / u) with (IZR j / u + dx) by (field; lra).
  set (A := I (px im1) _ _). set (B := I (px im2) _ _). set (S := I (t_err err) _ _) in *.
  rewrite <- RtoC_minus, <- !RtoC_mult, <- RtoC_div. f_equal. field. auto.
  intros Q. apply Hn. apply Rsqr_0_uniq. exact Q.
Qed.
Print Assumptions C118_chi2_helper_upsampled.

(** the synthetic offset image: the image Fourier-shifted, plus the noise *)
Theorem C118_offset_image :
  forall lio sc has_fftw img xsh ysh randn noise ny nx, shape img = [ny; nx] -> (0 < ny)%Z -> (0 < nx)%Z ->
  exists out, make_offset_extended lio sc has_fftw img xsh ysh randn noise false = Ok out /\ shape out = [ny; nx] /\
    forall i j, (0 <= i < ny)%Z -> (0 <= j < nx)%Z -> get out [i; j] = fshift ny nx (px img) ysh xsh i j + randn [i; j] * noise.
Proof.
  intros lio sc fw img xsh ysh rn noise ny nx Hs Hy Hx. unfold make_offset_extended. cbn [bind].
  destruct (shiftnd_ok fw (of_num img) [ysh; xsh] 0 1 false false true) as [r [R1 [R2 R3]]]; [cbn [of_num amap shape]; rewrite Hs; apply pos2; auto|].
  cbn [of_num amap shape] in R2, R3. rewrite Hs in R2, R3. rewrite fit_offset_id in R3 by reflexivity. rewrite R1. cbn [bind pick].
  eexists. split; [reflexivity|]. split; [exact R2|]. intros i j Hi Hj. cbn [amap get]. rewrite R3 by (apply inb2_intro; auto). rewrite fshift_shifted by auto.
  rewrite (shifted_ext [ny; nx] _ (fun p => RtoC (img2 (px img) p)) [ysh; xsh] 0).
  2:{ intros p Hin. apply inb2 in Hin. destruct Hin as [v [w [-> _]]]. unfold cnan0. cbn. reflexivity. }
  unfold Re. cbn. ring.
Qed.
Print Assumptions C118_offset_image.

(** with noise_taper=True it never returns *)
Theorem C118_taper_refuted :
  forall lio sc has_fftw img xsh ysh randn noise, exists e, make_offset_extended lio sc has_fftw img xsh ysh randn noise true = Raise e.
Proof.
  intros lio sc fw img xsh ysh rn noise. unfold make_offset_extended. destruct (shape img) as [|n l]; [cbn [bind]; eauto|]. unfold edge_weight.
  destruct (C62_smooth_always_raises_refuted (arr R) lio sc [n; n] (PInt 5) KGaussian None None 6 (NFun np_sum)) as [e E]. rewrite E. cbn [bind]. eauto.
Qed.
Print Assumptions C118_taper_refuted.

(** sum of absolute values against the 2-norm *)
Lemma abs_sum_norm2 ny nx (f : Z -> Z -> R) : (0 < ny)%Z -> (0 < nx)%Z -> pixel_sum ny nx (fun i j => Rabs (f i j)) <= sqrt (IZR (ny * nx)) * norm2 ny nx f.
Proof.
  intros Hy Hx. set (S := pixel_sum ny nx (fun i j => Rabs (f i j))). set (Q := pixel_sum ny nx (fun i j => f i j ^ 2)). set (N := IZR (ny * nx)).
  assert (N0 : 0 < N) by (apply IZR_lt; lia). assert (S0 : 0 <= S) by (apply sum2_nonneg; intros; apply Rabs_pos). assert (Q0 : 0 <= Q) by (apply sum2_nonneg; intros; apply pow2_ge_0).
  assert (E : S * S <= N * Q).
  { assert (H : 0 <= pixel_sum ny nx (fun i j => (N * Rabs (f i j) - S) ^ 2)) by (apply sum2_nonneg; intros; apply pow2_ge_0).
    change (pixel_sum ny nx) with (sum2 ny nx) in H.
    rewrite (sum2_ext ny nx _ (fun i j => N * N * f i j ^ 2 + (-2 * N * S * Rabs (f i j) + S * S * 1))) in H by (intros i j _ _; rewrite <- (pow2_abs (f i j)); ring).
    rewrite sum2_plus, sum2_scal, sum2_plus, !sum2_scal in H. change (sum2 ny nx) with (pixel_sum ny nx) in H. fold Q S in H.
    assert (O : pixel_sum ny nx (fun _ _ => 1) = N). { unfold pixel_sum. rewrite (sumR_ext ny _ (fun _ => IZR nx)) by (intros; rewrite sumR_const by lia; ring). rewrite sumR_const by lia. unfold N. rewrite mult_IZR. ring. }
    rewrite O in H. apply (Rmult_le_reg_l N); auto. lra. }
  unfold norm2. fold Q. rewrite <- sqrt_mult by lra. rewrite <- (sqrt_pow2 S) by auto. apply sqrt_le_1_alt. cbn. lra.
Qed.

(** the accuracy tests of the package, for all images, offsets, noise realisations and sizes: chi2_shift on an image and its
    synthetic offset copy, the shift taken back; test_extended_shifts, test_issue19 *)
Lemma extended_recovered :
  forall lio sc e img xsh ysh randn noise err s us nthreads use_np nfitted ret_err ret_arr mas mns allow_huge ny nx t off,
  shape img = [ny; nx] -> (0 < ny)%Z -> (0 < nx)%Z -> (err = ErrNone /\ s = 1 \/ err = ErrScalar s /\ s <> 0) -> size_ok e allow_huge ny nx -> grid_given us ny nx mas -> one_sigma e t ->
  make_offset_extended lio sc (e_fftw e) img xsh ysh randn noise false = Ok off ->
  let im2 := amap Fin off in
  (* the noise, and (even sizes only) the imaginary part lost in the offset image *)
  let lost := norm2 ny nx (fun i j => randn [i; j] * noise) + norm2 ny nx (fun i j => Im (cshift ny nx (px img) ysh xsh i j)) in
  (Z.odd ny = true -> Z.odd nx = true -> norm2 ny nx (fun i j => Im (cshift ny nx (px img) ysh xsh i j)) = 0) /\
  exists map0 t1 t2 t3 ym xm u s1 s2 x y rest out,
    chi2n_map e img im2 err BWrap nthreads false use_np true false allow_huge = Ok (Chi2All map0 t1 t2 t3) /\
    is_argmin2 ny nx (g2 map0) (ym, xm) /\ final_grid e us ny nx map0 ym xm mas mns nfitted u s1 s2 /\
    chi2_shift e img im2 err us BWrap nthreads use_np false nfitted false ret_err ret_arr mas mns allow_huge = Ok (RNum x :: RNum y :: rest) /\
    shiftnd (e_fftw e) (of_num im2) [- y; - x] 0 1 false false true = Ok (RealArr out) /\ shape out = [ny; nx] /\
    (in_window ny ym s1 u ysh -> in_window nx xm s2 u xsh ->
      norm2 ny nx (fun i j => get out [i; j] - px img i j) <= lost + PI / u * norm2 ny nx (px img)).
Proof.
  intros lio sc e img xsh ysh rn noise err s us nt np nf re rc mas mns huge ny nx t off Hs Hy Hx Hn Hh Hg Ht Ho im2 lost.
  assert (Hp : pos_shape [ny; nx]) by (apply pos2; auto).
  destruct (C118_offset_image lio sc (e_fftw e) img xsh ysh rn noise ny nx Hs Hy Hx) as [off' [O1 [O2 O3]]]. rewrite Ho in O1. injection O1 as <-.
  assert (S2 : shape im2 = [ny; nx]) by exact O2.
  split.
  { intros Oy Ox. assert (E := proj2 (fshift_energy ny nx (px img) ysh xsh Hy Hx) Oy Ox). assert (E2 := energy_cshift ny nx (px img) Hy Hx ysh xsh).
    unfold norm2. match goal with |- sqrt ?X = 0 => replace X with 0; [apply sqrt_0|] end.
    change (pixel_sum ny nx) with (sum2 ny nx). rewrite (sum2_ext ny nx (fun i j => Im _ ^ 2) (fun i j => Cmod (cshift ny nx (px img) ysh xsh i j) ^ 2 - fshift ny nx (px img) ysh xsh i j ^ 2)).
    - rewrite sum2_minus, E2, E. ring.
    - intros i j _ _. rewrite fshift_shifted, cshift_shifted by auto. destruct (cshift ny nx (px img) ysh xsh i j) as [a b]. unfold Cmod, Re, Im. cbn [fst snd].
      rewrite pow2_sqrt by (assert (Q3 := pow2_ge_0 a); assert (Q4 := pow2_ge_0 b); lra). ring. }
  destruct (C116_chi2_shift e img im2 err s us nt np false nf re rc mas mns huge ny nx t Hs S2 Hy Hx Hh Hn Hg Ht)
    as [c [t1 [t2 [t3 [ym [xm [u [s1 [s2 [x [y [rest [F1 [F2 [F3 [F4 F5]]]]]]]]]]]]]]]].
  change (prep false img ny nx) with (px img) in F5. change (prep false im2 ny nx) with (px im2) in F5.
  destruct (shiftnd_ok (e_fftw e) (of_num im2) [- y; - x] 0 1 false false true) as [r [R1 [R2 R3]]]; [cbn [of_num amap shape]; rewrite S2; auto|].
  cbn [of_num amap shape] in R2, R3. rewrite S2 in R2, R3. rewrite fit_offset_id in R3 by reflexivity.
  exists c, t1, t2, t3, ym, xm, u, s1, s2, x, y, rest, (amap Re r). do 4 (split; [assumption|]). split; [exact R1|]. split; [exact R2|].
  intros Wy Wx. destruct (F5 ysh xsh Wy Wx) as [K _].
  assert (E : norm2 ny nx (fun i j => get (amap Re r) [i; j] - px img i j) <= mismatch ny nx (px img) (px im2) y x).
  { rewrite mismatch_l2 by auto. rewrite <- (shift_back [ny; nx] Hp (fun p => RtoC (img2 (px img) p)) (fun p => RtoC (img2 (px im2) p)) [y; x] eq_refl).
    unfold norm2, l2, l2sq. rewrite sum2_sumNR. apply sqrt_le_1_alt. apply sum2_le. intros i j Hi Hj. cbn [img2 map].
    cbn [amap get]. rewrite R3 by (apply inb2_intro; auto).
    rewrite (shifted_ext [ny; nx] _ (fun p => RtoC (img2 (px im2) p)) [- y; - x] 0).
    2:{ intros p Hin. apply inb2 in Hin. destruct Hin as [v [w [-> _]]]. unfold cnan0. cbn. reflexivity. }
    set (z := shifted _ _ _ _ _). cbn [amap get].
    refine (Rle_trans _ (Rabs (Re (Cminus z (RtoC (px img i j)))) ^ 2) _ _ _); [rewrite pow2_abs; right; cbn; unfold Re; ring|].
    apply pow_incr. split; [apply Rabs_pos|apply re_le_Cmod]. }
  assert (M : mismatch ny nx (px img) (px im2) ysh xsh <= lost).
  { rewrite mismatch_l2 by auto. unfold lost.
    refine (Rle_trans _ _ _ (l2_triangle [ny; nx] (fun p => RtoC (img2 (px im2) p)) (fun p => RtoC (img2 (fshift ny nx (px img) ysh xsh) p)) _) _). apply Rplus_le_compat.
    - unfold norm2, l2, l2sq. rewrite sum2_sumNR. apply sqrt_le_1_alt. apply sum2_le. intros i j Hi Hj. cbn [img2]. rewrite <- RtoC_minus, Cmod_R, pow2_abs.
      replace (px im2 i j - fshift ny nx (px img) ysh xsh i j) with (rn [i; j] * noise); [apply Rle_refl|]. unfold px at 1, im2. cbn [amap get]. rewrite O3 by auto. ring.
    - unfold norm2, l2, l2sq. rewrite sum2_sumNR. apply sqrt_le_1_alt. apply sum2_le. intros i j Hi Hj. cbn [img2]. rewrite fshift_shifted, cshift_shifted by auto.
      destruct (cshift ny nx (px img) ysh xsh i j) as [a b]. unfold Cmod, Re, Im. cbn [fst snd RtoC Cminus Cplus Copp].
      rewrite pow2_sqrt by (assert (Q3 := pow2_ge_0 (a + - a)); assert (Q4 := pow2_ge_0 (0 + - b)); lra). cbn. right. ring. }
  exact (Rle_trans _ _ _ E (Rle_trans _ _ _ K (Rplus_le_compat_r _ _ _ M))).
Qed.
Theorem C118_extended_test :
  forall lio sc e img xsh ysh randn noise us nthreads use_np nfitted ret_err ret_arr mas mns allow_huge ny nx t off,
  shape img = [ny; nx] -> (0 < ny)%Z -> (0 < nx)%Z -> noise <> 0 -> size_ok e allow_huge ny nx -> grid_given us ny nx mas -> one_sigma e t ->
  make_offset_extended lio sc (e_fftw e) img xsh ysh randn noise false = Ok off ->
  let im2 := amap Fin off in
  (* the noise, and (even sizes only) the imaginary part lost in the offset image *)
  let lost := norm2 ny nx (fun i j => randn [i; j] * noise) + norm2 ny nx (fun i j => Im (cshift ny nx (px img) ysh xsh i j)) in
  (Z.odd ny = true -> Z.odd nx = true -> norm2 ny nx (fun i j => Im (cshift ny nx (px img) ysh xsh i j)) = 0) /\
  exists map0 t1 t2 t3 ym xm u s1 s2 x y rest out,
    chi2n_map e img im2 (ErrScalar noise) BWrap nthreads false use_np true false allow_huge = Ok (Chi2All map0 t1 t2 t3) /\
    is_argmin2 ny nx (g2 map0) (ym, xm) /\ final_grid e us ny nx map0 ym xm mas mns nfitted u s1 s2 /\
    chi2_shift e img im2 (ErrScalar noise) us BWrap nthreads use_np false nfitted false ret_err ret_arr mas mns allow_huge = Ok (RNum x :: RNum y :: rest) /\
    shiftnd (e_fftw e) (of_num im2) [- y; - x] 0 1 false false true = Ok (RealArr out) /\ shape out = [ny; nx] /\
    (in_window ny ym s1 u ysh -> in_window nx xm s2 u xsh ->
      pixel_sum ny nx (fun i j => Rabs (get out [i; j] - px img i j)) <= sqrt (IZR (ny * nx)) * (lost + PI / u * norm2 ny nx (px img))).
Proof.
  intros lio sc e img xsh ysh rn noise us nt np nf re rc mas mns huge ny nx t off Hs Hy Hx Hn Hh Hg Ht Ho im2 lost.
  destruct (extended_recovered lio sc e img xsh ysh rn noise (ErrScalar noise) noise us nt np nf re rc mas mns huge ny nx t off Hs Hy Hx ltac:(right; auto) Hh Hg Ht Ho)
    as [L [c [t1 [t2 [t3 [ym [xm [u [s1 [s2 [x [y [rest [r [F1 [F2 [F3 [F4 [F5 [F6 F7]]]]]]]]]]]]]]]]]]]].
  split; [exact L|]. exists c, t1, t2, t3, ym, xm, u, s1, s2, x, y, rest, r. do 6 (split; [assumption|]).
  intros Wy Wx. refine (Rle_trans _ _ _ _ (Rmult_le_compat_l _ _ _ (sqrt_pos _) (F7 Wy Wx))).
  exact (abs_sum_norm2 ny nx (fun i j => get r [i; j] - px img i j) Hy Hx).
Qed.
Print Assumptions C118_extended_test.

(** non-vacuity: a bright pixel moved by (-2, -2) without noise; the coarse minimum is at (4, 4), and the window around it contains the offset *)
Example C118_nonvacuous : let E := Env false (2 ^ 30) false (fun _ _ => NaN) in
  exists off, make_offset_extended true true false delta5 (-2) (-2) (fun _ => 0) (1 / 2) false = Ok off /\ shape off = [5; 5]%Z /\
  get off [4; 1]%Z = 7 /\ one_sigma E (159358435 / 100000000) /\ size_ok E false 5 5 /\ grid_given (UInt 3) 5 5 512 /\
  forall map0 t1 t2 t3 ym xm u s1 s2,
    chi2n_map E delta5 (amap Fin off) (ErrScalar (1 / 2)) BWrap 1 false false true false false = Ok (Chi2All map0 t1 t2 t3) -> is_argmin2 5 5 (g2 map0) (ym, xm) ->
    final_grid E (UInt 3) 5 5 map0 ym xm 512 (11 / 10) 2 u s1 s2 -> in_window 5 ym s1 u (-2) /\ in_window 5 xm s2 u (-2).
Proof.
  intros E. destruct (C118_offset_image true true false delta5 (-2) (-2) (fun _ => 0) (1 / 2) 5 5 eq_refl ltac:(lia) ltac:(lia)) as [off [O1 [O2 O3]]].
  assert (G : forall i j, (0 <= i < 5)%Z -> (0 <= j < 5)%Z -> get off [i; j] = px delta5 ((i + 2) mod 5) ((j + 2) mod 5)).
  { intros i j Hi Hj. rewrite O3 by auto. rewrite fshift_shifted by lia. rewrite cshift_shifted by lia. change (-2) with (IZR (-2)). rewrite cshift_int by lia.
    replace (i - -2)%Z with (i + 2)%Z by lia. replace (j - -2)%Z with (j + 2)%Z by lia. unfold Re, RtoC. cbn [fst]. ring. }
  exists off. split; [exact O1|]. split; [exact O2|]. split; [rewrite G by lia; reflexivity|]. split; [split; [lra|reflexivity]|]. split; [right; simpl; lia|].
  split; [exists 3, 5%Z, 5%Z; simpl; repeat split; lia|].
  intros map0 t1 t2 t3 ym xm u s1 s2 F1 F2 F3.
  destruct (C34_scalar_error E delta5 (amap Fin off) (ErrScalar (1 / 2)) (1 / 2) 1 false false true false 5 5 eq_refl O2 ltac:(lia) ltac:(lia) ltac:(right; simpl; lia) ltac:(right; split; [reflexivity|lra])) as [r [Er [_ V]]].
  rewrite F1 in Er. injection Er as <-. cbn [chi2_of_res] in V. destruct F2 as [A1 [A2 [A3 _]]]. cbn [fst snd] in *. specialize (A3 4%Z 4%Z ltac:(lia) ltac:(lia)).
  rewrite !V in A3 by lia.
  change (prep false delta5 5 5) with (px delta5) in A3. change (prep false (amap Fin off) 5 5) with (px (amap Fin off)) in A3.
  assert (P : forall i j, (0 <= i < 5)%Z -> (0 <= j < 5)%Z -> px (amap Fin off) i j = px delta5 ((i + 2) mod 5) ((j + 2) mod 5)) by (intros i j Hi Hj; unfold px at 1; cbn [amap get]; apply G; auto).
  assert (Z4 : chi2_of 5 5 (px delta5) (px (amap Fin off)) (fun _ _ => 1 / 2) ((5 - 1) / 2 - 4) ((5 - 1) / 2 - 4) = 0).
  { apply sum2_const0. intros i j Hi Hj. rewrite P by auto. change ((5 - 1) / 2 - 4)%Z with (-2)%Z. replace (i - -2)%Z with (i + 2)%Z by lia. replace (j - -2)%Z with (j + 2)%Z by lia. field. }
  rewrite Z4 in A3. unfold chi2_of in A3.
  assert (N : forall i j, (0 <= i < 5)%Z -> (0 <= j < 5)%Z -> 0 <= ((px (amap Fin off) i j - px delta5 ((i - ((5 - 1) / 2 - ym)) mod 5) ((j - ((5 - 1) / 2 - xm)) mod 5)) / (1 / 2)) ^ 2) by (intros; apply pow2_ge_0).
  assert (Q := sum2_nonneg_0 5 5 _ N ltac:(apply Rle_antisym; [exact A3|apply sum2_nonneg; exact N]) 4%Z 1%Z ltac:(lia) ltac:(lia)). cbv beta in Q. rewrite P in Q by lia.
  change (px delta5 ((4 + 2) mod 5) ((1 + 2) mod 5)) with 7 in Q. change ((5 - 1) / 2)%Z with 2%Z in Q.
  assert (D : px delta5 ((4 - (2 - ym)) mod 5) ((1 - (2 - xm)) mod 5) = 7).
  { assert (T : (7 - px delta5 ((4 - (2 - ym)) mod 5) ((1 - (2 - xm)) mod 5)) / (1 / 2) = 0) by (apply Rsqr_0_uniq; unfold Rsqr; cbn [pow] in Q; lra). lra. }
  assert (Y : (ym = 4 /\ xm = 4)%Z).
  { unfold px, delta5, mk2 in D. cbn [get] in D. destruct (Z.eqb_spec ((4 - (2 - ym)) mod 5) 1) as [Y|Y]; destruct (Z.eqb_spec ((1 - (2 - xm)) mod 5) 3) as [X|X]; cbn [andb] in D; try lra.
    Z.to_euclidean_division_equations; lia. }
  destruct Y as [-> ->]. cbn in F3. destruct F3 as [F3a [F3b [F3c F3d]]]. subst.
  assert (G0 : grid_shift 5 4 5 3 0 = - (4 / 3)) by (unfold grid_shift; cbn; lra). assert (G1 : grid_shift 5 4 5 3 (5 - 1) = - (8 / 3)) by (unfold grid_shift; cbn; lra).
  split; exists 0%Z; rewrite G0, G1; lra.
Qed.
