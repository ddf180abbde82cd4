(** Properties C55, C56, C73: the registered image, interface and invariances of register_images *)
From Coq Require Import ZArith Lia List Reals Lra Bool FunctionalExtensionality.
From Coquelicot Require Import Complex.
From Verif Require Import Base NDim DFT Kernel Num Py M_fast_ffts M_shift M_upsample Arg M_chi2 M_xcorr M_register
  Spec L_shift L_scale L_upsample Sum2 Spec2 Spec3 Spec4 L_chi2 L_chi2shift L_fshift L_xcorr P_chi2errors P_xcorr P_xcorr2 P_xcorr3
  L_register L_register2 L_register3 P_register P_register2.
Import ListNotations.
Open Scope R_scope.

Lemma register_reg hf im1 im2 u re zm mo nt np ny nx tx ty : shape im1 = [ny; nx] -> shape im2 = [ny; nx] -> (0 < ny)%Z -> (0 < nx)%Z -> 0 < u ->
  register_images hf im1 im2 u false re zm mo nt np = Ok (nums [tx; ty] ++ err_out re u) ->
  exists a, register_images hf im1 im2 u true re zm mo nt np = Ok (nums [tx; ty] ++ err_out re u ++ [RgImg a]) /\ shape a = [ny; nx] /\
    forall i j, (0 <= i < ny)%Z -> (0 <= j < nx)%Z ->
      get a [i; j] = Cmod (cshift ny nx (prep zm im2 ny nx) (- ty) (- tx) ((i + ny / 2) mod ny) ((j + nx / 2) mod nx)).
Proof.
  intros H1 H2 Hy Hx Hu E.
  assert (F := register_eq hf im1 im2 u false re zm mo nt np ny nx H1 H2 Hy Hx ltac:(lra) ltac:(discriminate)).
  assert (T := register_eq hf im1 im2 u true re zm mo nt np ny nx H1 H2 Hy Hx ltac:(lra) ltac:(auto)). cbv zeta in F, T.
  destruct (regtail _ _ _ _ _) as [r c]. destruct F as [t1 [F [F1 _]]]. destruct T as [t2 [T [_ T1]]]. rewrite (F1 eq_refl) in F.
  destruct (T1 eq_refl) as [a [-> [Sa Ga]]]. rewrite F in E. injection E as Ec Er. exists a. rewrite T, err_out_part. cbn [nums map app].
  split; [rewrite Ec, Er; reflexivity|]. split; [exact Sa|]. intros i j Hi Hj. rewrite Ga by auto.
  replace r with (- ty) by lra. replace c with (- tx) by lra. reflexivity.
Qed.

(** what the registered image is, for every input: the modulus of im2 shifted by minus the result, rolled by half the image *)
Theorem C55_registered_image :
  forall has_fftw im1 im2 usfac ret_err zeromean maxoff nthreads use_np ny nx,
  shape im1 = [ny; nx] -> shape im2 = [ny; nx] -> (0 < ny)%Z -> (0 < nx)%Z -> 0 < usfac ->
  exists tx ty a,
    register_images has_fftw im1 im2 usfac false ret_err zeromean maxoff nthreads use_np = Ok (nums [tx; ty] ++ err_out ret_err usfac) /\
    register_images has_fftw im1 im2 usfac true ret_err zeromean maxoff nthreads use_np = Ok (nums [tx; ty] ++ err_out ret_err usfac ++ [RgImg a]) /\
    shape a = [ny; nx] /\
    forall i j, (0 <= i < ny)%Z -> (0 <= j < nx)%Z ->
      get a [i; j] = Cmod (cshift ny nx (prep zeromean im2 ny nx) (- ty) (- tx) ((i + ny / 2) mod ny) ((j + nx / 2) mod nx)).
Proof.
  intros hf im1 im2 u re zm mo nt np ny nx H1 H2 Hy Hx Hu.
  assert (F := register_eq hf im1 im2 u false re zm mo nt np ny nx H1 H2 Hy Hx ltac:(lra) ltac:(discriminate)). cbv zeta in F.
  destruct (regtail _ _ _ _ _) as [r c]. destruct F as [t1 [F [F1 _]]]. rewrite (F1 eq_refl), app_nil_r, err_out_part in F.
  destruct (register_reg hf im1 im2 u re zm mo nt np ny nx (- c) (- r) H1 H2 Hy Hx Hu F) as [a A].
  exists (- c), (- r), a. split; [exact F|]. exact A.
Qed.
Print Assumptions C55_registered_image.

(** for a roll: |im1| rolled by half the image, not im1 *)
Theorem C55_registered_roll :
  forall has_fftw im1 im2 usfac ret_err zeromean maxoff nthreads use_np ny nx dy dx,
  is_roll im1 im2 ny nx dy dx -> (0 < ny)%Z -> (0 < nx)%Z ->
  0 < usfac -> (usfac <= 2 \/ exists k : Z, usfac = IZR k) ->
  mo_ok maxoff -> within maxoff (2 * centred ny dy) -> within maxoff (2 * centred nx dx) ->
  no_phase_symmetry ny nx (prep zeromean im1 ny nx) ->
  exists a,
    register_images has_fftw im1 im2 usfac true ret_err zeromean maxoff nthreads use_np =
      Ok (nums [IZR (centred nx dx); IZR (centred ny dy)] ++ err_out ret_err usfac ++ [RgImg a]) /\ shape a = [ny; nx] /\
    forall i j, (0 <= i < ny)%Z -> (0 <= j < nx)%Z ->
      get a [i; j] = Rabs (prep zeromean im1 ny nx ((i + ny / 2) mod ny) ((j + nx / 2) mod nx)).
Proof.
  intros hf im1 im2 u re zm mo nt np ny nx dy dx HR Hy Hx Hu UK HM Wy Wx Hp.
  assert (E := C52_roll_recovered_every_factor hf im1 im2 u re zm mo nt np ny nx dy dx HR Hy Hx ltac:(lra) UK HM Wy Wx Hp).
  destruct (register_reg hf im1 im2 u re zm mo nt np ny nx _ _ (proj1 HR) (proj1 (proj2 HR)) Hy Hx Hu E) as [a [A [Sa Ga]]].
  exists a. split; [exact A|]. split; [exact Sa|]. intros i j Hi Hj. rewrite Ga by auto. rewrite <- !opp_IZR, cshift_int, Cmod_R by auto.
  rewrite (prep_roll zm im1 im2 ny nx dy dx) by (auto; apply Z.mod_pos_bound; auto). f_equal.
  assert (M : forall n k d, (0 < n)%Z -> (0 <= k < n)%Z -> (((k - - centred n d) mod n - d) mod n = k)%Z).
  { intros n k d Hn Hk. rewrite Zminus_mod_idemp_l. assert (C := centred_mod n d Hn). apply Z.mod_divide in C; [|lia]. destruct C as [q C].
    replace (k - - centred n d - d)%Z with (k + (- q) * n)%Z by lia. rewrite Z.mod_add by lia. apply Z.mod_small; auto. }
  rewrite !M by (auto; apply Z.mod_pos_bound; auto). reflexivity.
Qed.
Print Assumptions C55_registered_roll.

Theorem C55_registered_refuted :
  exists im1 : arr num, shape im1 = [4; 4]%Z /\ (forall y x, (0 <= y < 4)%Z -> (0 <= x < 4)%Z -> exists r, get im1 [y; x] = Fin r /\ 0 <= r) /\
  forall has_fftw maxoff nthreads use_np, mo_ok maxoff -> exists tx ty a,
    register_images has_fftw im1 im1 1 true false false maxoff nthreads use_np = Ok (nums [tx; ty] ++ [RgImg a]) /\
    get im1 [0; 0]%Z = Fin 1 /\ get a [0; 0]%Z = 0.
Proof.
  exists (dot 4 4 0 0). split; [reflexivity|]. split.
  { intros y x _ _. cbn [get dot mk2]. eexists. split; [reflexivity|]. destruct (_ && _)%bool; lra. }
  intros hf mo nt np HM.
  assert (HR : is_roll (dot 4 4 0 0) (dot 4 4 0 0) 4 4 0 0).
  { split; [reflexivity|]. split; [reflexivity|]. intros y x Hy Hx. rewrite !Z.sub_0_r, !Z.mod_small by auto. reflexivity. }
  destruct (C55_registered_roll hf (dot 4 4 0 0) (dot 4 4 0 0) 1 false false mo nt np 4 4 0 0 HR ltac:(lia) ltac:(lia) ltac:(lra) ltac:(left; lra) HM) as [a [A [_ G]]].
  - destruct mo; cbn in *; lia.
  - destruct mo; cbn in *; lia.
  - apply dot_no_phase_symmetry; lia.
  - exists (IZR (centred 4 0)), (IZR (centred 4 0)), a. split; [exact A|]. split; [reflexivity|].
    rewrite G by lia. rewrite dot_prep. cbn. apply Rabs_R0.
Qed.
Print Assumptions C55_registered_refuted.
Example C55_nonvacuous : exists im1 im2 : arr num, is_roll im1 im2 4 5 2 (-2) /\ no_phase_symmetry 4 5 (prep false im1 4 5) /\
  exists a, register_images false im1 im2 3 true false false None 1 true = Ok (nums [-2; -2] ++ [RgImg a]) /\ get a [3; 4]%Z = 1.
Proof.
  exists (dot 4 5 1 1), (dot 4 5 3 4). destruct C52_nonvacuous as [HR [Hp _]]. cbv zeta in HR, Hp. split; [exact HR|]. split; [exact Hp|].
  destruct (C55_registered_roll false (dot 4 5 1 1) (dot 4 5 3 4) 3 false false None 1 true 4 5 2 (-2) HR ltac:(lia) ltac:(lia) ltac:(lra) ltac:(right; exists 3%Z; reflexivity) I I I Hp) as [a [A [_ G]]].
  exists a. split; [exact A|]. rewrite G by lia. rewrite dot_prep. cbn. apply Rabs_R1.
Qed.

(** *** C56 *)
Theorem C56_shape_mismatch :
  forall has_fftw im1 im2 usfac ret_reg ret_err zeromean maxoff nthreads use_np,
  shape im1 <> shape im2 -> register_images has_fftw im1 im2 usfac ret_reg ret_err zeromean maxoff nthreads use_np = Raise ValueError.
Proof. intros. unfold register_images. destruct (list_eq_dec Z.eq_dec (shape im1) (shape im2)); [contradiction|reflexivity]. Qed.
Print Assumptions C56_shape_mismatch.

Lemma register_start hf im1 im2 u rr re zm mo nt np : shape im1 = shape im2 ->
  register_images hf im1 im2 u rr re zm mo nt np = Raise ValueError \/
  exists b1 b2 k, shape b1 = shape im1 /\ register_images hf im1 im2 u rr re zm mo nt np = bind (dftregistration hf b1 b2 u rr re mo 1 false) k.
Proof.
  intros H. unfold register_images. destruct (list_eq_dec Z.eq_dec (shape im1) (shape im2)); [|contradiction]. cbn [negb].
  assert (SF := fun a => proj1 (get_ffts_fwd hf nt np a)). destruct (get_ffts hf nt np) as [fw iv]. cbn [fst snd] in *. unfold check_fft.
  destruct (pos_shapeb (shape im1)); cbn [bind]; [right|left; reflexivity].
  eexists. eexists. eexists. split; [|reflexivity]. rewrite SF. reflexivity.
Qed.
Theorem C56_factor_zero :
  forall has_fftw im1 im2 ret_reg ret_err zeromean maxoff nthreads use_np,
  shape im1 = shape im2 -> register_images has_fftw im1 im2 0 ret_reg ret_err zeromean maxoff nthreads use_np = Raise ValueError.
Proof.
  intros. destruct (register_start has_fftw im1 im2 0 ret_reg ret_err zeromean maxoff nthreads use_np H) as [E|[b1 [b2 [k [S E]]]]]; [exact E|].
  rewrite E. unfold dftregistration. destruct (get_ffts _ _ _). destruct (Req_EM_T 0 0); [reflexivity|lra].
Qed.
Print Assumptions C56_factor_zero.
Theorem C56_only_2d :
  forall has_fftw im1 im2 usfac ret_reg ret_err zeromean maxoff nthreads use_np,
  shape im1 = shape im2 -> length (shape im1) <> 2%nat ->
  register_images has_fftw im1 im2 usfac ret_reg ret_err zeromean maxoff nthreads use_np = Raise ValueError.
Proof.
  intros hf im1 im2 u rr re zm mo nt np H L. destruct (register_start hf im1 im2 u rr re zm mo nt np H) as [E|[b1 [b2 [k [S E]]]]]; [exact E|].
  rewrite E. unfold dftregistration. destruct (get_ffts _ _ _). destruct (Req_EM_T u 0); [reflexivity|]. rewrite S.
  destruct (shape im1) as [|? [|? [|]]]; try reflexivity. cbn in L. lia.
Qed.
Print Assumptions C56_only_2d.

(** every successful call returns two numbers, then 1/usfac twice if return_error is set, then the registered image if requested *)
Theorem C56_layout :
  forall has_fftw im1 im2 usfac ret_reg ret_err zeromean maxoff nthreads use_np ny nx,
  shape im1 = [ny; nx] -> shape im2 = [ny; nx] -> (0 < ny)%Z -> (0 < nx)%Z -> usfac <> 0 -> (ret_reg = true -> 0 < usfac) ->
  exists tx ty tail,
    register_images has_fftw im1 im2 usfac ret_reg ret_err zeromean maxoff nthreads use_np =
      Ok (nums [tx; ty] ++ (if ret_err then nums [1 / usfac; 1 / usfac] else []) ++ tail) /\
    match tail with [] => ret_reg = false | [RgImg a] => ret_reg = true /\ shape a = [ny; nx] | _ => False end.
Proof.
  intros hf im1 im2 u rr re zm mo nt np ny nx H1 H2 Hy Hx U0 Urr.
  assert (T := register_eq hf im1 im2 u rr re zm mo nt np ny nx H1 H2 Hy Hx U0 Urr). cbv zeta in T.
  destruct (regtail _ _ _ _ _) as [r c]. destruct T as [t [T [T1 T2]]]. exists (- c), (- r), t. rewrite T. split; [destruct re; reflexivity|].
  destruct rr; [destruct (T2 eq_refl) as [a [-> [S _]]]|rewrite (T1 eq_refl)]; auto.
Qed.
Print Assumptions C56_layout.

Theorem C56_negative_factor_registered :
  forall has_fftw im1 im2 usfac ret_err zeromean maxoff nthreads use_np ny nx,
  shape im1 = [ny; nx] -> shape im2 = [ny; nx] -> (0 < ny)%Z -> (0 < nx)%Z -> usfac < 0 ->
  register_images has_fftw im1 im2 usfac true ret_err zeromean maxoff nthreads use_np = Raise UnboundLocalError.
Proof.
  intros hf im1 im2 u re zm mo nt np ny nx H1 H2 Hy Hx U. unfold register_images. rewrite H1, H2.
  destruct (list_eq_dec Z.eq_dec [ny; nx] [ny; nx]) as [_|N]; [|congruence]. cbn [negb].
  assert (SF := fun a => proj1 (get_ffts_fwd hf nt np a)). destruct (get_ffts hf nt np) as [fw iv]. cbn [fst snd] in *.
  rewrite check_fft_ok by auto using pos2. cbn [bind]. unfold dftregistration. rewrite SF. cbn [shape].
  destruct (get_ffts hf 1 false) as [fw' iv']. destruct (Req_EM_T u 0); [lra|]. destruct (Req_EM_T u 1); [lra|]. cbv zeta.
  destruct (Rlt_dec 2 u); [lra|]. destruct (peak _ _ _) as [r c]. cbn [bind]. destruct (Rlt_dec 0 u); [lra|]. reflexivity.
Qed.
Print Assumptions C56_negative_factor_registered.

Theorem C56_single_row_or_column :
  forall has_fftw im1 im2 usfac ret_err zeromean nthreads use_np maxoff ny nx,
  shape im1 = [ny; nx] -> shape im2 = [ny; nx] -> (0 < ny)%Z -> (0 < nx)%Z -> usfac <> 0 -> mo_ok maxoff ->
  exists tx ty, register_images has_fftw im1 im2 usfac false ret_err zeromean maxoff nthreads use_np = Ok (nums [tx; ty] ++ err_out ret_err usfac) /\
    (nx = 1%Z -> tx = 0) /\ (ny = 1%Z -> ty = 0).
Proof.
  intros hf im1 im2 u re zm nt np mo ny nx H1 H2 Hy Hx U0 HM. rewrite <- err_out_part. destruct (Req_EM_T u 1) as [->|U1].
  - destruct (register_whole hf im1 im2 re zm mo nt np ny nx H1 H2 Hy Hx HM) as [ty [tx [E [Ry [Rx _]]]]]. rewrite E. eexists. eexists. split; [reflexivity|].
    split; intros ->; cbn in Rx, Ry; f_equal; lia.
  - assert (F := register_eq hf im1 im2 u false re zm mo nt np ny nx H1 H2 Hy Hx U0 ltac:(discriminate)). cbv zeta in F. unfold regtail in F.
    destruct (Req_EM_T u 1); [contradiction|]. destruct (if Rlt_dec 2 u then _ else _) as [r c] in F. destruct F as [t [F [F1 _]]]. rewrite (F1 eq_refl), app_nil_r in F.
    rewrite F. eexists. eexists. split; [reflexivity|]. split; intros ->; cbn; apply Ropp_0.
Qed.
Print Assumptions C56_single_row_or_column.

(** the result depends on the prepared images only, up to a common positive factor of |correlation| *)
Lemma regtail_scal ny nx G G' k u mo : (0 < ny)%Z -> (0 < nx)%Z -> 0 < k -> (forall r c, G' r c = k * G r c) ->
  regtail ny nx G' u mo = regtail ny nx G u mo.
Proof.
  intros Hy Hx Hk HG. assert (EG : G' = fun r c => k * G r c) by (apply functional_extensionality; intros r; apply functional_extensionality; intros c; apply HG).
  subst G'. clear HG.
  assert (MS : forall m n (h : Z -> Z -> R), (0 < m)%Z -> (0 < n)%Z -> argmax2 m n (maskR m n mo (fun i j => k * h i j)) = argmax2 m n (maskR m n mo h)).
  { intros m n h Hm Hn. rewrite <- (argmax2_scal m n k (maskR m n mo h)) by auto. apply argmax2_ext'; auto. intros. apply maskR_scal. }
  assert (C : coarse ny nx (fun r c => k * G r c) mo = coarse ny nx G mo).
  { unfold coarse. rewrite (MS (ny * 2)%Z (nx * 2)%Z (fun i j => G (IZR i / 2) (IZR j / 2))) by lia. reflexivity. }
  assert (F : forall p, 2 < u -> refine (fun r c => k * G r c) u p = refine G u p).
  { intros p U. unfold refine. assert (L := fine_size_pos u U). rewrite argmax2_scal by (auto; lia). reflexivity. }
  unfold regtail. rewrite C. destruct (Req_EM_T u 1).
  - rewrite (MS ny nx (fun i j => G (IZR i) (IZR j))) by auto. reflexivity.
  - destruct (Rlt_dec 2 u) as [U|U]; [rewrite F by exact U|]; reflexivity.
Qed.
Lemma rcc_scal ny nx f g f' g' a b ty tx : (0 < ny)%Z -> (0 < nx)%Z ->
  (forall y x, (0 <= y < ny)%Z -> (0 <= x < nx)%Z -> f' y x = a * f y x) ->
  (forall y x, (0 <= y < ny)%Z -> (0 <= x < nx)%Z -> g' y x = b * g y x) ->
  rcc ny nx f' g' ty tx = Cmult (RtoC (a * b)) (rcc ny nx f g ty tx).
Proof.
  intros Hy Hx F G. unfold rcc.
  assert (S : forall i j, cshift ny nx f' ty tx i j = Cmult (RtoC a) (cshift ny nx f ty tx i j)).
  { intros i j. unfold cshift, trig_interp. rewrite <- sumNC_scal. apply sumNC_ext. intros y Hy'. apply inb2 in Hy'. destruct Hy' as [p [q [-> [Hp Hq]]]].
    cbn [img2]. rewrite F by auto. rewrite RtoC_mult. ring. }
  rewrite <- sumC_scal. apply sumC_ext. intros i Hi. rewrite <- sumC_scal. apply sumC_ext. intros j Hj. rewrite S, G by auto. rewrite !RtoC_mult. ring.
Qed.
Lemma register_det hf hf' im1 im2 jm1 jm2 a b u re zm zm' mo nt nt' np np' ny nx :
  shape im1 = [ny; nx] -> shape im2 = [ny; nx] -> shape jm1 = [ny; nx] -> shape jm2 = [ny; nx] -> (0 < ny)%Z -> (0 < nx)%Z ->
  u <> 0 -> a <> 0 -> b <> 0 ->
  (forall y x, (0 <= y < ny)%Z -> (0 <= x < nx)%Z -> prep zm' jm1 ny nx y x = a * prep zm im1 ny nx y x) ->
  (forall y x, (0 <= y < ny)%Z -> (0 <= x < nx)%Z -> prep zm' jm2 ny nx y x = b * prep zm im2 ny nx y x) ->
  register_images hf' jm1 jm2 u false re zm' mo nt' np' = register_images hf im1 im2 u false re zm mo nt np.
Proof.
  intros H1 H2 J1 J2 Hy Hx U A B P1 P2.
  assert (F := register_eq hf im1 im2 u false re zm mo nt np ny nx H1 H2 Hy Hx U ltac:(discriminate)).
  assert (G := register_eq hf' jm1 jm2 u false re zm' mo nt' np' ny nx J1 J2 Hy Hx U ltac:(discriminate)). cbv zeta in F, G.
  rewrite (regtail_scal ny nx (mag ny nx (prep zm im1 ny nx) (prep zm im2 ny nx)) _ (Rabs (a * b))) in G; auto.
  - destruct (regtail _ _ _ _ _) as [r c]. destruct F as [t1 [F [F1 _]]]. destruct G as [t2 [G [G1 _]]]. rewrite F, G, (F1 eq_refl), (G1 eq_refl). reflexivity.
  - apply Rabs_pos_lt. apply Rmult_integral_contrapositive. auto.
  - intros r c. unfold mag. rewrite (rcc_scal ny nx (prep zm im1 ny nx) (prep zm im2 ny nx) _ _ a b) by auto. rewrite Cmod_mult, Cmod_R. reflexivity.
Qed.

Theorem C56_constants_ignored :
  forall has_fftw im1 im2 usfac ret_err maxoff nthreads use_np ny nx k1 k2,
  shape im1 = [ny; nx] -> shape im2 = [ny; nx] -> (0 < ny)%Z -> (0 < nx)%Z -> usfac <> 0 ->
  register_images has_fftw (add_const k1 im1) (add_const k2 im2) usfac false ret_err true maxoff nthreads use_np =
  register_images has_fftw im1 im2 usfac false ret_err true maxoff nthreads use_np.
Proof.
  intros. apply (register_det _ _ im1 im2 (add_const k1 im1) (add_const k2 im2) 1 1 _ _ _ _ _ _ _ _ _ ny nx); auto; try lra;
  intros y x HY HX; rewrite prep_add_const, Rmult_1_l by auto; reflexivity.
Qed.
Print Assumptions C56_constants_ignored.
Theorem C56_factors_ignored :
  forall has_fftw im1 im2 usfac ret_err zeromean maxoff nthreads use_np ny nx k1 k2,
  shape im1 = [ny; nx] -> shape im2 = [ny; nx] -> (0 < ny)%Z -> (0 < nx)%Z -> usfac <> 0 -> k1 <> 0 -> k2 <> 0 ->
  register_images has_fftw (scale_img k1 im1) (scale_img k2 im2) usfac false ret_err zeromean maxoff nthreads use_np =
  register_images has_fftw im1 im2 usfac false ret_err zeromean maxoff nthreads use_np.
Proof.
  intros. apply (register_det _ _ im1 im2 (scale_img k1 im1) (scale_img k2 im2) k1 k2 _ _ _ _ _ _ _ _ _ ny nx); auto;
  intros y x HY HX; apply prep_scale.
Qed.
Print Assumptions C56_factors_ignored.
Theorem C56_backend_irrelevant :
  forall has_fftw has_fftw' im1 im2 usfac ret_err zeromean maxoff nthreads nthreads' use_np use_np' ny nx,
  shape im1 = [ny; nx] -> shape im2 = [ny; nx] -> (0 < ny)%Z -> (0 < nx)%Z -> usfac <> 0 ->
  register_images has_fftw im1 im2 usfac false ret_err zeromean maxoff nthreads use_np =
  register_images has_fftw' im1 im2 usfac false ret_err zeromean maxoff nthreads' use_np'.
Proof.
  intros. apply (register_det has_fftw' has_fftw im1 im2 im1 im2 1 1 _ _ zeromean _ _ nthreads' _ use_np' _ ny nx); auto; try lra; intros; ring.
Qed.
Print Assumptions C56_backend_irrelevant.
Example C56_nonvacuous : shape (mk2 1 3 (fun _ x => Fin (IZR x))) = [1; 3]%Z /\ [1; 3]%Z <> [3; 1]%Z /\
  length (shape (mk1 3 (fun x => Fin (IZR x)))) <> 2%nat /\ get (scale_img (-2) (mk2 1 3 (fun _ x => Fin (IZR x)))) [0; 2]%Z = Fin (-4).
Proof. split; [reflexivity|]. split; [discriminate|]. split; [cbn; lia|]. cbn. f_equal. ring. Qed.

(** *** C73 *)
Theorem C73_swapping_negates :
  forall has_fftw im1 im2 ret_err zeromean nthreads use_np ny nx sy sx,
  shape im1 = [ny; nx] -> shape im2 = [ny; nx] -> (0 < ny)%Z -> (0 < nx)%Z ->
  best_abs_roll ny nx (prep zeromean im1 ny nx) (prep zeromean im2 ny nx) sy sx ->
  register_images has_fftw im1 im2 1 false ret_err zeromean None nthreads use_np =
    Ok (nums [IZR (centred nx sx); IZR (centred ny sy)] ++ err_out ret_err 1) /\
  register_images has_fftw im2 im1 1 false ret_err zeromean None nthreads use_np =
    Ok (nums [IZR (centred nx (- sx)); IZR (centred ny (- sy))] ++ err_out ret_err 1).
Proof.
  intros hf im1 im2 re zm nt np ny nx sy sx H1 H2 Hy Hx HB. split; apply C51_unique_peak_is_returned; auto; try exact I.
  intros s t Hst. rewrite !(ccf_swap ny nx (prep zm im1 ny nx) (prep zm im2 ny nx)) by auto. rewrite !Z.opp_involutive. apply HB.
  assert (M : forall n p q, (0 < n)%Z -> ((p - - q) mod n <> 0 -> (- p - q) mod n <> 0)%Z).
  { intros n p q Hn N E. apply N. apply Z.mod_divide in E; [|lia]. apply Z.mod_divide; [lia|]. destruct E as [k E]. exists (- k)%Z. lia. }
  destruct Hst; [left|right]; apply M; auto.
Qed.
Print Assumptions C73_swapping_negates.
(** the centred range is symmetric except for the half-size shift of an even axis *)
Theorem C73_negated_in_range :
  forall n d, (0 < n)%Z -> centred n (- d) = if (2 * centred n d =? - n)%Z then centred n d else (- centred n d)%Z.
Proof.
  intros n d Hn. symmetry. assert (R := centred_range n d Hn). assert (M := centred_mod n d Hn). apply Z.mod_divide in M; [|lia]. destruct M as [k M].
  apply centred_unique; auto.
  - destruct (Z.eqb_spec (2 * centred n d) (- n)); Z.to_euclidean_division_equations; lia.
  - destruct (Z.eqb_spec (2 * centred n d) (- n)) as [E|E]; apply Z.mod_divide; try lia; [exists (- k + 1)%Z|exists (- k)%Z]; lia.
Qed.
Print Assumptions C73_negated_in_range.
Example C73_nonvacuous : let im1 := dot 4 5 1 1 in let im2 := dot 4 5 3 4 in
  best_abs_roll 4 5 (prep false im1 4 5) (prep false im2 4 5) 2 (-2) /\ centred 5 (- -2) = 2%Z /\ centred 4 (-2) = (-2)%Z.
Proof.
  cbv zeta. split; [|split; reflexivity]. destruct C51_nonvacuous as [HR [Hs [Ha _]]]. cbv zeta in HR. apply best_abs_of_roll; try lia; auto.
  intros y x HY HX. apply (prep_roll false _ _ 4 5 2 (-2) y x HR); lia.
Qed.
