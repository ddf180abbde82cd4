(** C131: the experiment drivers of the tests *)
From Coq Require Import ZArith Lia List Reals Lra Bool.
From Coquelicot Require Import Complex.
From Verif Require Import Base NDim DFT Kernel Num Py Sum2 M_fast_ffts M_shift M_scale M_zoom M_upsample M_convolve M_correlate M_kernel Arg M_chi2 M_xcorr M_register M_testing M_testing2 M_testing3
  Spec L_shift L_scale L_upsample L_convolve Spec2 Spec3 Spec4 L_correlate L_chi2 L_zoom L_register L_register2 L_register3
  L_chi2shift L_fshift P_shift P_kernel P_register P_register2 P_xcorr2 P_rounding L_iterzoom2 L_accuracy P_accuracy P_accuracy2 P_rounding10 P_testing P_testing3.
Import ListNotations.
Open Scope R_scope.

Lemma in_range a b k : In k (range a b) <-> (a <= k < b)%Z.
Proof.
  unfold range. rewrite in_map_iff. split.
  - intros [m [<- H]]. apply in_seq in H. lia.
  - intros H. exists (Z.to_nat (k - a)). split; [lia|]. apply in_seq. lia.
Qed.
Lemma each_ok {A B : Type} (f : A -> res B) g l : (forall a, In a l -> f a = Ok (g a)) -> each f l = Ok (map g l).
Proof. induction l as [|a l IH]; intros H; [reflexivity|]. cbn [each map]. rewrite H by (left; auto). cbn [bind]. rewrite IH by (intros; apply H; right; auto). reflexivity. Qed.
Lemma each_raise {A B : Type} (f : A -> res B) a l e : f a = Raise e -> each f (a :: l) = Raise e.
Proof. intros H. cbn [each]. rewrite H. reflexivity. Qed.
Lemma range_cons a b : (a < b)%Z -> range a b = a :: range (a + 1) b.
Proof.
  intros H. unfold range. replace (Z.to_nat (b - a)) with (S (Z.to_nat (b - (a + 1)))) by lia. cbn [seq map]. f_equal; [lia|]. rewrite <- seq_shift, map_map. apply map_ext. intros k. lia.
Qed.
Lemma each_nth {A B : Type} (f : A -> res B) l bs : each f l = Ok bs -> length bs = length l /\ forall k a, nth_error l k = Some a -> exists b, nth_error bs k = Some b /\ f a = Ok b.
Proof.
  revert bs. induction l as [|a l IH]; intros bs H.
  - injection H as <-. split; [reflexivity|]. intros [|k] c Hc; discriminate.
  - cbn [each] in H. destruct (f a) as [b|] eqn:E; [|discriminate]. cbn [bind] in H. destruct (each f l) as [bs'|] eqn:E'; [|discriminate]. cbn [bind] in H. injection H as <-.
    destruct (IH bs' eq_refl) as [L N]. split; [cbn; congruence|]. intros [|k] c Hc.
    + injection Hc as <-. exists b. auto.
    + apply N. exact Hc.
Qed.

(** *** the rows *)
(** two images of the given size with the given pixels *)
Definition picture (n : Z) (f : Z -> Z -> R) (a : arr num) : Prop := shape a = [n; n] /\ forall y x, get a [y; x] = Fin (f y x).

(** do_n_fits: row k is the method's answer on the k-th noisy pair.  If the method fails on one, the call fails *)
Theorem C131_fits :
  forall A (shift_func : method A) nfits xsh ysh imsize gaussfit maxoff return_error width amp noiseamp xc yc draws answer,
  let n := truncR imsize in (0 <= n)%Z -> width <> 0 -> noiseamp <> 0 -> amp <> 0 ->
  (forall k im1 im2, (0 <= k < nfits)%Z ->
     picture n (fun y x => gaussian amp width (IZR (y - yc)) (IZR (x - xc))) im1 ->
     picture n (fun y x => draws k y x * noiseamp + gaussian amp width (IZR (y - yc) - ysh) (IZR (x - xc) - xsh)) im2 ->
     shift_func im1 im2 gaussfit maxoff return_error = Ok (answer k)) ->
  do_n_fits nfits xsh ysh imsize gaussfit maxoff return_error shift_func (Pair width amp noiseamp (PInt xc) (PInt yc)) draws = Ok (map answer (range 0 nfits)).
Proof.
  intros A sf nf xsh ysh ims gf mo re w amp na xc yc dr ans n Hn Hw Hna Ha H. unfold do_n_fits. apply each_ok. intros k Hk. apply in_range in Hk.
  unfold pair_images. cbn [pa_width pa_amp pa_noise pa_xcen pa_ycen].
  destruct (C128_offset_images xsh ysh ims w amp na xc yc (dr k) Hn Hw Hna Ha) as [im1 [im2 [tol [E [S1 [S2 [V1 [V2 _]]]]]]]]. rewrite E. cbn [bind]. apply H; auto.
  - split; [exact S1|]. intros y x. cbn [amap get]. rewrite V1. reflexivity.
  - split; [exact S2|]. intros y x. cbn [amap get]. rewrite V2. reflexivity.
Qed.
Print Assumptions C131_fits.

(** do_n_extended_fits (no masking, no padding, no plot): row k is the method's answer on the image and its k-th offset copy;
    gaussfit and maxoff are not passed on *)
Theorem C131_extended_fits :
  forall A (shift_func : arr num -> arr num -> bool -> res A) lio sc hf nfits xsh ysh imsize gaussfit maxoff return_error powerlaw noise smoothfactor zeropad re im draws answer,
  let n := truncR imsize in (0 < n)%Z -> (zeropad <= 0)%Z ->
  exists image, make_extended imsize None powerlaw re im = Ok image /\
    ((forall k off, (0 <= k < nfits)%Z -> shape off = [n; n] ->
       (forall i j, (0 <= i < n)%Z -> (0 <= j < n)%Z -> get off [i; j] = fshift n n (fun y x => get image [y; x]) ysh xsh i j + draws k [i; j] * noise) ->
       shift_func (amap Fin image) (amap Fin off) return_error = Ok (answer k)) ->
     do_n_extended_fits lio sc hf nfits xsh ysh imsize gaussfit maxoff return_error powerlaw noise false smoothfactor zeropad shift_func false false re im draws =
       Ok (map answer (range 0 nfits))).
Proof.
  intros A sf lio sc hf nf xsh ysh ims gf mo ret p noise smf zp re im dr ans n Hn Hz.
  destruct (C129_make_extended ims None p re im) as [image [E1 [S1 _]]]; fold n; auto. fold n in S1. exists image. split; [exact E1|]. intros H.
  unfold do_n_extended_fits. rewrite E1. cbn [bind]. destruct (Z.ltb_spec 0 zp); [lia|]. cbn [bind]. apply each_ok. intros k Hk. apply in_range in Hk.
  assert (Si : shape (amap Fin image) = [n; n]) by exact S1.
  destruct (C118_offset_image lio sc hf (amap Fin image) xsh ysh (dr k) noise n n Si Hn Hn) as [off [E2 [S2 V2]]]. rewrite E2. cbn [bind]. apply H; auto.
Qed.
Print Assumptions C131_extended_fits.

(** register_accuracy_test returns (y, x) in its rows, register_noise_test (x, y) *)
Theorem C131_column_order_refuted :
  forall has_fftw im1 im2 zeromean maxoff nthreads use_np ny nx dy dx a b ntests usf draws,
  is_roll im1 im2 ny nx dy dx -> (0 < ny)%Z -> (0 < nx)%Z -> (1 <= a)%Z -> (1 <= usf)%Z ->
  mo_ok maxoff -> within maxoff (2 * centred ny dy) -> within maxoff (2 * centred nx dx) ->
  no_phase_symmetry ny nx (prep zeromean im1 ny nx) ->
  register_accuracy_test has_fftw im1 im2 a b zeromean maxoff nthreads use_np = Ok (map (fun _ => (IZR (centred ny dy), IZR (centred nx dx))) (range a b)) /\
  register_noise_test im1 im2 ntests 0
      (fun i1 i2 => let! out := register_images has_fftw i1 i2 (IZR usf) false false zeromean maxoff nthreads use_np in
                    match out with [RgNum x; RgNum y] => Ok (x, y) | _ => Raise ValueError end) draws =
    Ok (map (fun _ => (IZR (centred nx dx), IZR (centred ny dy))) (range 0 ntests)).
Proof.
  intros hf im1 im2 zm mo nt np ny nx dy dx a b ntests usf dr HR Hy Hx Ha Hu Hm Wy Wx HN. split.
  - unfold register_accuracy_test. apply each_ok. intros k Hk. apply in_range in Hk.
    rewrite (C52_roll_recovered_every_factor hf im1 im2 (IZR k) false zm mo nt np ny nx dy dx) by (try (apply IZR_neq0; lia); try (right; exists k; reflexivity); auto). reflexivity.
  - unfold register_noise_test. apply each_ok. intros k Hk.
    set (im2' := Arr (shape im2) _).
    assert (HR' : is_roll im1 im2' ny nx dy dx).
    { destruct HR as [R1 [R2 R3]]. split; [exact R1|]. split; [exact R2|]. intros y x Hy' Hx'. unfold im2'. cbn [get]. rewrite <- R3 by auto. destruct (get im2 [y; x]); [rewrite Rmult_0_r, Rplus_0_r|]; reflexivity. }
    rewrite (C52_roll_recovered_every_factor hf im1 im2' (IZR usf) false zm mo nt np ny nx dy dx) by (try (apply IZR_neq0; lia); try (right; exists usf; reflexivity); auto). reflexivity.
Qed.
Print Assumptions C131_column_order_refuted.

(** what accuracy_plot_extended plots for a method that finds the offset exactly is not the error of the offset *)
Theorem C131_plotted_error_refuted :
  forall xsh ysh a b, accuracy_plot_extended xsh ysh a b (fun _ => Ok (xsh, ysh)) = Ok (map (fun _ => sqrt 2 * Rabs (xsh + ysh)) (range a b)).
Proof.
  intros xsh ysh a b. unfold accuracy_plot_extended. apply each_ok. intros k _. cbn [bind]. f_equal.
  replace ((xsh + ysh) ^ 2 + (ysh + xsh) ^ 2) with (2 * Rsqr (xsh + ysh)) by (unfold Rsqr; ring). rewrite sqrt_mult by (try lra; apply Rle_0_sqr). f_equal. apply sqrt_Rsqr_abs.
Qed.
Print Assumptions C131_plotted_error_refuted.

(** calls that cannot succeed *)
Theorem C131_drivers_refuted :
  (* zero padding (Python 3): float slice bounds *)
  (forall A sf lio sc hf nf xsh ysh ims gf mo ret p noise us smf zp plot taper re im dr, (0 < truncR ims)%Z -> (0 < zp)%Z ->
     do_n_extended_fits (A := A) lio sc hf nf xsh ysh ims gf mo ret p noise us smf zp sf plot taper re im dr = Raise TypeError) /\
  (* unsharp masking: smooth never returns *)
  (forall A sf lio sc hf nf xsh ysh ims gf mo ret p noise smf zp plot taper re im dr, (0 < truncR ims)%Z -> (0 < nf)%Z ->
     exists e, do_n_extended_fits (A := A) lio sc hf nf xsh ysh ims gf mo ret p noise true smf zp sf plot taper re im dr = Raise e) /\
  (* plotting *)
  (forall A sf lio sc hf nf xsh ysh ims gf mo ret p noise smf zp taper re im dr, (0 < truncR ims)%Z -> (zp <= 0)%Z ->
     do_n_extended_fits (A := A) lio sc hf nf xsh ysh ims gf mo ret p noise false smf zp sf true taper re im dr = Raise UnboundLocalError) /\
  (* run_tests: the print *)
  (forall A B (fits : method A) (one : arr num -> arr num -> res B) xsh ysh ims amp nf mo dr last, exists e, run_tests xsh ysh ims amp nf mo fits one dr last = Raise e) /\
  (* accuracy_plot *)
  (forall xsh ysh amp width ims a b draw, (0 <= truncR ims)%Z -> width <> 0 -> amp <> 0 -> (a < b)%Z -> accuracy_plot xsh ysh amp width ims a b draw = Raise NameError) /\
  (* plot_tests: the amplitude asked for does not reach the images *)
  (forall A (fits : method A) nf xsh ysh ims amp amp' dr, amp <> 0 -> amp' <> 0 -> plot_tests nf xsh ysh ims amp fits dr = plot_tests nf xsh ysh ims amp' fits dr).
Proof.
  repeat apply conj.
  - intros A sf lio sc hf nf xsh ysh ims gf mo ret p noise us smf zp plot taper re im dr Hn Hz. unfold do_n_extended_fits.
    destruct (C129_make_extended ims None p re im) as [image [E1 _]]; auto. rewrite E1. cbn [bind]. destruct (Z.ltb_spec 0 zp); [reflexivity|lia].
  - intros A sf lio sc hf nf xsh ysh ims gf mo ret p noise smf zp plot taper re im dr Hn Hz. unfold do_n_extended_fits.
    destruct (C129_make_extended ims None p re im) as [image [E1 _]]; auto. rewrite E1. cbn [bind]. destruct (Z.ltb_spec 0 zp); [exists TypeError; reflexivity|]. cbn [bind].
    destruct (C62_smooth_always_raises_refuted (arr R) lio sc (shape image) smf KGaussian None None 6 (NFun np_sum)) as [e He].
    exists e. rewrite range_cons by auto. apply each_raise. rewrite He. reflexivity.
  - intros A sf lio sc hf nf xsh ysh ims gf mo ret p noise smf zp taper re im dr Hn Hz. unfold do_n_extended_fits.
    destruct (C129_make_extended ims None p re im) as [image [E1 _]]; auto. rewrite E1. cbn [bind]. destruct (Z.ltb_spec 0 zp); [lia|reflexivity].
  - intros A B fits one xsh ysh ims amp nf mo dr last. unfold run_tests. destruct (do_n_fits _ _ _ _ _ _ _ _ _ _) as [r|e]; cbn [bind]; [|exists e; reflexivity].
    destruct (pair_images _ _ _ _ _) as [[[i1 i2] t]|e]; cbn [bind]; [|exists e; reflexivity]. destruct (one _ _) as [r'|e]; cbn [bind]; [exists TypeError|exists e]; reflexivity.
  - intros xsh ysh amp w ims a b draw Hn Hw Ha Hab. unfold accuracy_plot, pair_images. cbn [pa_width pa_amp pa_noise pa_xcen pa_ycen].
    destruct (C128_offset_images xsh ysh ims w amp 1 50 50 draw) as [im1 [im2 [tol [E _]]]]; auto; try lra. rewrite E. cbn [bind]. rewrite range_cons by auto. reflexivity.
  - intros A fits nf xsh ysh ims amp amp' dr H H'. unfold plot_tests. destruct (Req_EM_T amp 0); [contradiction|]. destruct (Req_EM_T amp' 0); [contradiction|]. reflexivity.
Qed.
Print Assumptions C131_drivers_refuted.

(** do_n_fits_register calls its third column chi2; even for a perfect registration it is the mean squared difference of the image and
    the absolute value of the image less its mean, rolled by half its size: the registered image has lost its mean and its signs
    (zeromean is on by default, the absolute value is taken) and comes rolled *)
Theorem C131_registered_column_refuted :
  forall has_fftw nfits xsh ysh imsize usfac width amp noiseamp xc yc draws rows,
  let n := truncR imsize in let p := Pair width amp noiseamp (PInt xc) (PInt yc) in
  (2 <= n)%Z -> 2 < usfac -> width <> 0 -> noiseamp <> 0 -> 0 < amp ->
  do_n_fits_register has_fftw nfits xsh ysh imsize usfac p draws = Ok rows ->
  length rows = Z.to_nat nfits /\
  forall k, (0 <= k < nfits)%Z ->
  exists x y mean2 im2 (a b : Z),
    nth_error rows (Z.to_nat k) = Some (x, y, mean2) /\ 0 <= mean2 /\
    (forall i j, im2 i j = draws k i j * noiseamp + gaussian amp width (IZR (i - yc) - ysh) (IZR (j - xc) - xsh)) /\
    let im1 := fun i j => gaussian amp width (IZR (i - yc)) (IZR (j - xc)) in
    let less_mean f := fun i j => f i j - pixel_sum n n f / IZR (n * n) in
    let half i := ((i + n / 2) mod n)%Z in
    (forall s t : Z, Cmod (rcc n n (less_mean im1) (less_mean im2) (IZR s / 2) (IZR t / 2)) <= Cmod (rcc n n (less_mean im1) (less_mean im2) (IZR a / 2) (IZR b / 2))) /\
    (near_coarse n usfac (IZR a / 2) ysh -> near_coarse n usfac (IZR b / 2) xsh ->
      Rabs (sqrt (IZR (n * n) * mean2) - norm2 n n (fun i j => im1 i j - Rabs (less_mean im1 (half i) (half j)))) <=
        mismatch n n (less_mean im1) (less_mean im2) ysh xsh + PI / usfac * norm2 n n (less_mean im1)).
Proof.
  intros hf nf xsh ysh ims us w amp na xc yc dr rows n p Hn Hu Hw Hna Ha E. unfold do_n_fits_register in E. apply each_nth in E. destruct E as [L N].
  split; [rewrite L; unfold range; rewrite map_length, seq_length; f_equal; lia|].
  intros k Hk. destruct (N (Z.to_nat k) k) as [row [Er Ef]].
  { unfold range. rewrite nth_error_map. assert (Q : nth_error (seq 0 (Z.to_nat (nf - 0))) (Z.to_nat k) = Some (Z.to_nat k)).
    { rewrite (nth_error_nth' _ 0%nat) by (rewrite seq_length; lia). rewrite seq_nth by lia. reflexivity. }
    rewrite Q. cbn [option_map]. f_equal. lia. }
  unfold pair_images, p in Ef. cbn [pa_width pa_amp pa_noise pa_xcen pa_ycen] in Ef.
  destruct (C128_offset_images xsh ysh ims w amp na xc yc (dr k)) as [j1 [j2 [tol [E1 [S1 [S2 [V1 [V2 _]]]]]]]]; fold n; try lia; try lra; auto. fold n in S1, S2. rewrite E1 in Ef. cbn [bind] in Ef.
  destruct (C117_registered hf (amap Fin j1) (amap Fin j2) us false true None 1 false n n) as [a [b [x [y [img [R1 [R2 [R3 [R4 [R5 R6]]]]]]]]]]; auto; try exact I.
  rewrite R1 in Ef. cbn [err_out nums map app bind] in Ef. injection Ef as <-.
  set (im1 := fun i j => gaussian amp w (IZR (i - yc)) (IZR (j - xc))) in *.
  set (less_mean := fun (f : Z -> Z -> R) i j => f i j - pixel_sum n n f / IZR (n * n)).
  assert (N0 : 0 < IZR (n * n)) by (apply IZR_lt; nia).
  assert (VC : forall j0 : arr R, valid_count (amap Fin j0) n n = IZR (n * n)).
  { intros j0. unfold valid_count. change (pixel_sum n n) with (sum2 n n). cbn [amap get]. assert (Q := sum2_sumNR n n (fun _ => 1)). cbv beta in Q. rewrite Q || rewrite <- Q.
    rewrite sumNR_const by (constructor; [lia|constructor; [lia|constructor]]). cbn [prodZ fold_right]. rewrite Z.mul_1_r. ring. }
  assert (F1 : (fun i j => get j1 [i; j]) = im1) by (apply FunctionalExtensionality.functional_extensionality; intros i; apply FunctionalExtensionality.functional_extensionality; intros j; apply V1).
  assert (P : forall j0 : arr R, prep true (amap Fin j0) n n = less_mean (fun i j => get j0 [i; j])).
  { intros j0. apply FunctionalExtensionality.functional_extensionality; intros i. apply FunctionalExtensionality.functional_extensionality; intros j.
    unfold prep, less_mean. cbn [amap get]. rewrite VC. reflexivity. }
  rewrite !P, F1 in R5, R6. set (f2 := fun i j => get j2 [i; j]) in *.
  set (m2 := sumNR (shape j1) (fun q => (get j1 q - get img q) ^ 2) / IZR (prodZ (shape j1))).
  assert (M2 : IZR (n * n) * m2 = pixel_sum n n (fun i j => (im1 i j - get img [i; j]) ^ 2)).
  { unfold m2. rewrite S1. cbn [prodZ fold_right]. rewrite Z.mul_1_r. change (pixel_sum n n) with (sum2 n n).
    rewrite (sum2_ext n n (fun i j => (im1 i j - get img [i; j]) ^ 2) (fun i j => (get j1 [i; j] - get img [i; j]) ^ 2)) by (intros i j _ _; rewrite <- F1; reflexivity).
    rewrite <- (sum2_sumNR n n (fun q => (get j1 q - get img q) ^ 2)). field. apply IZR_neq0. nia. }
  exists x, y, m2, f2, a, b. split; [exact Er|]. split.
  { apply (Rmult_le_reg_l (IZR (n * n))); [exact N0|]. rewrite Rmult_0_r, M2. apply sum2_nonneg. intros i j _ _. apply pow2_ge_0. }
  split; [exact V2|]. intros im1' less_mean' half. split; [intros s t; apply R5; exact I|]. intros Ny Nx. specialize (R6 ysh xsh Ny Nx).
  change im1' with im1. change less_mean' with less_mean. rewrite M2. change (sqrt (pixel_sum n n (fun i j => (im1 i j - get img [i; j]) ^ 2))) with (norm2 n n (fun i j => im1 i j - get img [i; j])).
  set (w1 := fun i j => Rabs (less_mean im1 (half i) (half j))).
  change (fun i j => im1 i j - Rabs (less_mean im1 (half i) (half j))) with (fun i j => im1 i j - w1 i j).
  assert (G : norm2 n n (fun i j => get img [i; j] - w1 i j) <= mismatch n n (less_mean im1) (less_mean f2) ysh xsh + PI / us * norm2 n n (less_mean im1)).
  { refine (Rle_trans _ _ _ _ R6). right. unfold norm2. f_equal. change (pixel_sum n n) with (sum2 n n).
    rewrite <- (sum2_shift n n (fun i j => (get img [((i - n / 2) mod n)%Z; ((j - n / 2) mod n)%Z] - Rabs (less_mean im1 i j)) ^ 2) (n / 2) (n / 2)) by lia.
    apply sum2_ext. intros i j Hi Hj. unfold w1, half.
    assert (Q : forall v, (0 <= v < n)%Z -> (((v + n / 2) mod n - n / 2) mod n = v)%Z) by (intros v Hv; rewrite Zminus_mod_idemp_l; replace (v + n / 2 - n / 2)%Z with v by ring; apply Z.mod_small; auto).
    rewrite !Q by auto. reflexivity. }
  apply Rabs_le. split.
  - assert (T := norm2_add n n (fun i j => im1 i j - get img [i; j]) (fun i j => get img [i; j] - w1 i j)).
    rewrite (norm2_ext n n _ (fun i j => im1 i j - w1 i j)) in T by (intros; ring). lra.
  - assert (T := norm2_add n n (fun i j => im1 i j - w1 i j) (fun i j => (-1) * (get img [i; j] - w1 i j))).
    rewrite (norm2_ext n n _ (fun i j => im1 i j - get img [i; j])) in T by (intros; ring).
    assert (T2 : norm2 n n (fun i j => -1 * (get img [i; j] - w1 i j)) = norm2 n n (fun i j => get img [i; j] - w1 i j)) by (unfold norm2; f_equal; apply sum2_ext; intros i j _ _; ring).
    lra.
Qed.
Print Assumptions C131_registered_column_refuted.

(** three fits of the default pair by a method that reads the pixel at the offset centre; a dot moved by one column: the accuracy
    test reports (0, 1), the noise test (1, 0) *)
Example C131_nonvacuous :
  (forall draws : Z -> Z -> Z -> R,
    do_n_fits 3 8 (-10) 100 false None false (fun im1 im2 _ _ _ => Ok (get im1 [50; 50]%Z, get im2 [40; 58]%Z)) (Pair 3 1000 (1 / 2) (PInt 50) (PInt 50)) draws =
      Ok (map (fun k => (Fin 1000, Fin (draws k 40 58 * (1 / 2) + 1000))) [0; 1; 2])%Z) /\
  let im1 := dot 4 5 1 1 in let im2 := dot 4 5 1 2 in
  register_accuracy_test true im1 im2 1 4 false None 1 false = Ok [(0, 1); (0, 1); (0, 1)] /\
  (forall draws, register_noise_test im1 im2 2 0
      (fun i1 i2 => let! out := register_images true i1 i2 10 false false false None 1 false in
                    match out with [RgNum x; RgNum y] => Ok (x, y) | _ => Raise ValueError end) draws = Ok [(1, 0); (1, 0)]).
Proof.
  split.
  - intros draws. assert (T : truncR 100 = 100%Z) by (unfold truncR; destruct (Rle_dec 0 100); [apply (floorR_IZR 100)|lra]).
    rewrite (C131_fits (num * num) _ 3 8 (-10) 100 false None false 3 1000 (1 / 2) 50 50 draws (fun k => (Fin 1000, Fin (draws k 40%Z 58%Z * (1 / 2) + 1000)))); [reflexivity|rewrite T; lia|lra|lra|lra|].
    intros k im1 im2 _ [_ P1] [_ P2]. rewrite P1, P2. f_equal. 
    assert (G0 : gaussian 1000 3 0 0 = 1000) by (unfold gaussian; replace (- (0 ^ 2 + 0 ^ 2) / (2 * 3 ^ 2)) with 0 by field; rewrite exp_0; ring).
    replace (IZR (50 - 50)) with 0 by (cbn; ring). replace (IZR (40 - 50) - -10) with 0 by (cbn; ring). replace (IZR (58 - 50) - 8) with 0 by (cbn; ring). rewrite G0. reflexivity.
  - intros im1 im2. assert (HR : is_roll im1 im2 4 5 0 1).
    { split; [reflexivity|]. split; [reflexivity|]. intros y x Hy Hx. unfold im1, im2. cbn [get dot mk2]. do 2 f_equal.
      assert (Ey : (y = 0 \/ y = 1 \/ y = 2 \/ y = 3)%Z) by lia. assert (Ex : (x = 0 \/ x = 1 \/ x = 2 \/ x = 3 \/ x = 4)%Z) by lia.
      destruct Ey as [->|[->|[->| ->]]], Ex as [->|[->|[->|[->| ->]]]]; reflexivity. }
    assert (Hp := dot_no_phase_symmetry 4 5 1 1 ltac:(lia) ltac:(lia) ltac:(lia) ltac:(lia)). split.
    + exact (proj1 (C131_column_order_refuted true im1 im2 false None 1 false 4 5 0 1 1 4 0 1 (fun _ _ => 0) HR ltac:(lia) ltac:(lia) ltac:(lia) ltac:(lia) I I I Hp)).
    + intros draws. exact (proj2 (C131_column_order_refuted true im1 im2 false None 1 false 4 5 0 1 1 4 2 10 draws HR ltac:(lia) ltac:(lia) ltac:(lia) ltac:(lia) I I I Hp)).
Qed.
