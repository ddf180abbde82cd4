(** C123, second part: register_images in double precision, any upsampling factor *)
From Coq Require Import ZArith Lia List Reals Lra Bool Permutation.
From Flocq Require Import Core.
From Coquelicot Require Import Complex.
From Verif Require Import Base NDim DFT Kernel Num Py Sum2 M_fast_ffts M_shift M_scale M_zoom M_upsample M_convolve M_correlate Arg M_chi2 M_xcorr M_register M_rounding M_rounding2 M_rounding3 M_rounding4 M_rounding6 M_rounding7 M_float
  Spec L_shift L_scale L_upsample L_convolve Spec2 Spec3 Spec4 L_correlate L_chi2 L_register L_register2 L_register3
  L_chi2shift L_fshift L_xcorr P_xcorr P_xcorr2 P_xcorr3 P_chi2map P_chi2errors P_chi2shift P_chi2shift2 P_register P_register4 P_noise P_rounding P_rounding2 L_iterzoom2 L_rounding3 L_float P_float P_rounding3 P_float2 P_rounding4 L_rounding6 P_rounding6 P_float3 P_float6 L_rounding7 P_rounding7.
Import ListNotations.
Open Scope R_scope.

(** integers and halves of integers below 2^53 are doubles *)
Lemma rnd64_half k : (- 2 ^ 53 < k < 2 ^ 53)%Z -> rnd64 (IZR k / 2) = IZR k / 2.
Proof.
  intros Hk. unfold rnd64. apply round_generic; [apply valid_rnd_N|]. apply generic_format_FLX. exists (Float radix2 k (-1)).
  - unfold F2R. cbn [Fnum Fexp]. change (bpow radix2 (-1)) with (/ 2). reflexivity.
  - cbn [Fnum]. change (radix2 ^ 53)%Z with (2 ^ 53)%Z. lia.
Qed.
(** with an integer factor the grid is not moved by rounding *)
Theorem C123_integer_factor :
  forall S n m k, (forall x, sa_rd S x = rnd64 x) -> (0 <= m < 2 ^ 53)%Z -> (0 <= n)%Z -> (0 < k)%Z -> (k * (n + 3) < 2 ^ 53)%Z ->
  halves_exact S m /\ grid_unchanged S (IZR k) n.
Proof.
  intros S n m k HS Hm Hn Hk HB. split; [|split].
  - intros j Hj. rewrite HS. apply rnd64_half. lia.
  - rewrite HS. replace (IZR k * (3 / 2)) with (IZR (3 * k) / 2) by (rewrite mult_IZR; field). rewrite rnd64_half; [reflexivity|nia].
  - intros a Ha. rewrite HS. replace (IZR a / 2 * IZR k) with (IZR (a * k) / 2) by (rewrite mult_IZR; field). rewrite rnd64_half; [reflexivity|nia].
Qed.
Print Assumptions C123_integer_factor.

(** roundings in the transforms of the images and of the doubled product, or in the sum over all pixels *)
Definition fine_roundings (q : nat) (psy psx : list Z) : nat :=
  Nat.max (chi2_roundings q psy psx) (roundings1 q (2 :: psy)%Z + roundings1 q (2 :: psx)%Z + 4).

Theorem C123_double :
  forall q psy psx A A' B S T has_fftw im1 im2 u ret_err zeromean maxoff nthreads use_np a b C D,
  let ny := prodZ psy in let nx := prodZ psx in let mu := u64 in
  let eps := 2 * u64 * (INR (fine_roundings q psy psx) + 5 * T + 1) in
  pos_shape psy -> pos_shape psx -> double_arith q [psy; psx] A -> double_arith q [2 :: psy; 2 :: psx]%Z A' -> double_zarith q [psy; psx] B ->
  double_scalar q (Z.to_nat (ny * nx)) S -> (forall x, sa_rd S x = rnd64 x) -> eps <= 1 / 2 ->
  shape im1 = [ny; nx] -> shape im2 = [ny; nx] -> (1 < ny)%Z -> (1 < nx)%Z -> mo_ok maxoff -> 2 < u ->
  halves_exact S (ny + nx + ceilR (u * (3 / 2))) -> grid_unchanged S u ny -> grid_unchanged S u nx ->
  PI * reach ny * (1 + mu) ^ 12 <= T -> PI * reach nx * (1 + mu) ^ 12 <= T ->
  let f := prep zeromean im1 ny nx in let g := prep zeromean im2 ny nx in
  let corr := fun s t : R => Cmod (rcc ny nx f g s t) in
  within maxoff a -> within maxoff b ->
  (forall s t, (- ny <= s < ny)%Z -> (- nx <= t < nx)%Z -> (s, t) <> (a, b) ->
     corr (IZR s / 2) (IZR t / 2) + 2 * peak_error eps zeromean im1 im2 ny nx < corr (IZR a / 2) (IZR b / 2)) ->
  fine_window u (IZR a / 2) C -> fine_window u (IZR b / 2) D ->
  (forall s t, fine_window u (IZR a / 2) s -> fine_window u (IZR b / 2) t -> (s, t) <> (C, D) ->
     corr (IZR s / u) (IZR t / u) + 2 * fine_error eps mu zeromean im1 im2 ny nx < corr (IZR C / u) (IZR D / u)) ->
  register_images has_fftw im1 im2 u false ret_err zeromean maxoff nthreads use_np = Ok (nums [IZR D / u; IZR C / u] ++ err_out ret_err u) /\
  exists dx dy e, register_images_fp A A' B S im1 im2 u ret_err zeromean maxoff = Ok (nums [dx; dy] ++ (if ret_err : bool then nums [e; e] else [])) /\
    Rabs (dx - IZR D / u) <= (IZR nx + 8) * 3 * / 2 ^ 53 /\ Rabs (dy - IZR C / u) <= (IZR ny + 8) * 3 * / 2 ^ 53 /\ Rabs (e - 1 / u) <= / 2 ^ 53 / u.
Proof.
  intros q psy psx A A' B S T hf im1 im2 u re zm mo nt np a b C D ny nx mu eps Py Px HA HA' HB HS HRD Hle H1 H2 Hy Hx HM Hu HH Gy Gx HTy HTx f g corr Wa Wb U1 WC WD U2.
  assert (Hp : Forall pos_shape [psy; psx]) by (repeat constructor; auto). assert (U := u64_pos). set (m := fine_roundings q psy psx) in *.
  assert (Hp2 : Forall pos_shape [2 :: psy; 2 :: psx]%Z) by (repeat constructor; auto; apply pos_shape_cons; split; auto; lia).
  assert (T0 : 0 <= T).
  { refine (Rle_trans _ _ _ _ HTy). assert (0 < IZR ny) by (apply IZR_lt; lia). assert (1 <= (1 + mu) ^ 12) by (apply pow_R1_Rle; unfold mu; lra). assert (PP := PI_RGT_0).
    apply Rmult_le_pos; [apply Rmult_le_pos; [lra|unfold reach; lra]|lra]. }
  assert (E0 : 2 * u64 * INR m <= eps) by (unfold eps; apply Rmult_le_compat_l; lra).
  assert (UM : forall n, (n <= m)%nat -> (1 + u64) ^ n - 1 <= eps).
  { intros n Hn. assert (Q := C112_roundoff m ltac:(lra)). assert (Q2 := up_mono n m Hn). lra. }
  assert (F5 : (1 + u64) ^ 5 - 1 <= 10 * u64).
  { assert (Q := C112_roundoff 5). change (INR 5) with (1 + 1 + 1 + 1 + 1) in Q. assert (Q3 : (1 + 1 + 1 + 1 + 1) * u64 <= 1 / 2); [|specialize (Q Q3); lra].
    rewrite u64_val. apply (Rmult_le_reg_r (2 ^ 53)); [apply pow_lt; lra|]. rewrite Rmult_assoc, Rinv_l by (apply pow_nonzero; lra). cbn [pow]. lra. }
  assert (M1 : (roundings1 q psy + (roundings1 q psx + 0) + 4 <= m)%nat) by (unfold m, fine_roundings, chi2_roundings, most_roundings; lia).
  assert (M2 : (roundings1 q (2 :: psy)%Z + (roundings1 q (2 :: psx)%Z + 0) + 4 <= m)%nat) by (unfold m, fine_roundings; lia).
  assert (EA : accurate eps [ny; nx] A).
  { apply (accurate_weaken ((1 + u64) ^ (roundings1 q psy + (roundings1 q psx + 0) + 4) - 1)).
    - exact (C112_fft_is_accurate q [psy; psx] A Hp HA).
    - apply (UM _ M1). }
  assert (EA' : accurate eps [ny * 2; nx * 2]%Z A').
  { rewrite (Z.mul_comm ny), (Z.mul_comm nx). apply (accurate_weaken ((1 + u64) ^ (roundings1 q (2 :: psy)%Z + (roundings1 q (2 :: psx)%Z + 0) + 4) - 1)).
    - exact (C112_fft_is_accurate q [2 :: psy; 2 :: psx]%Z A' Hp2 HA').
    - apply (UM _ M2). }
  assert (EB : accurate_zoom eps T [ny; nx] B).
  { apply (C112_zoom_is_accurate q [psy; psx] B T eps Hp HB).
    - apply (UM _ M1).
    - assert (K := Rmult_le_compat_l T _ _ T0 F5). unfold eps. assert (0 <= INR m) by apply pos_INR. assert (0 <= u64 * INR m) by (apply Rmult_le_pos; lra). lra.
    - intros n Hn. apply UM. unfold m, fine_roundings, chi2_roundings, most_roundings. fold ny nx. cbn in Hn. destruct Hn as [<- | [<- | []]]; fold ny nx; lia. }
  assert (HR : rounds u64 S) by (split; [lra|]; intros x; rewrite HRD; apply rnd64_err).
  assert (ES : accurate_scalar eps (Z.to_nat (ny * nx)) S) by (apply (scalar_weaken _ _ _ _ (C113_double_is_accurate q _ S HS)); apply UM; unfold m, fine_roundings, chi2_roundings; fold ny nx; lia).
  assert (MU : u64 <= 1 / 4) by (assert (Q := u64_small 1 ltac:(lia)); cbn [INR] in Q; lra).
  destruct (C123_same_answer A A' B S eps T u64 hf im1 im2 u re zm mo nt np ny nx a b C D H1 H2 Hy Hx HM Hu EA EA' EB ES Hle HR MU HH Gy Gx HTy HTx Wa Wb U1 WC WD U2) as [R1 [dx [dy [e [R2 [O1 [O2 O3]]]]]]].
  split; [exact R1|]. exists dx, dy, e. split; [exact R2|]. rewrite <- u64_val.
  assert (OB : forall n, (1 < n)%Z -> offset_error u64 n <= (IZR n + 8) * 3 * u64).
  { intros n Hn. apply IZR_lt in Hn. unfold offset_error, reach. assert (Q := C112_roundoff 3). assert (E3 : INR 3 = 3) by (rewrite INR_IZR_INZ; reflexivity). assert (S1 := u64_small 3 ltac:(lia)). rewrite E3 in *. specialize (Q ltac:(lra)).
    replace ((IZR n + 8) * 3 * u64) with ((IZR n / 2 + 4) * (2 * 3 * u64)) by field. apply Rmult_le_compat_l; lra. }
  split; [refine (Rle_trans _ _ _ O1 (OB nx Hx))|]. split; [refine (Rle_trans _ _ _ O2 (OB ny Hy))|exact O3].
Qed.
Print Assumptions C123_double.

(** a bright pixel and a block of four bright pixels: half a pixel along each axis *)
Definition block : arr num := mk2 3 3 (fun y x => Fin (if ((y <? 2) && (x <? 2))%Z then 1 else 0)).
Lemma block_rcc s t : rcc 3 3 (prep false (dot 3 3 0 0) 3 3) (prep false block 3 3) s t =
  RtoC ((2 + 2 * cos (2 * PI * ((s - 1 / 2) / 3))) / 3 * ((2 + 2 * cos (2 * PI * ((t - 1 / 2) / 3))) / 3)).
Proof.
  assert (P33 : pos_shape [3; 3]%Z) by (apply pos2; lia).
  assert (CS : forall i j, cshift 3 3 (prep false (dot 3 3 0 0) 3 3) s t i j = Cmult (D1 3 (IZR i - s)) (D1 3 (IZR j - t))).
  { intros i j. unfold cshift, trig_interp. rewrite (sumNC_single _ _ [0; 0]%Z).
    - rewrite <- Dn_dirichletN by auto. cbn [toR map subR zipw img2]. rewrite dot_prep. cbn [Z.eqb andb]. rewrite Dn_cons by auto. rewrite Dn_1 by lia. rewrite Cmult_1_l. unfold subR, zipw. f_equal; f_equal; lra.
    - apply inb2_intro; lia.
    - intros y Hy N. apply inb2 in Hy. destruct Hy as [a [b [-> _]]]. cbn [img2]. rewrite dot_prep. destruct (Z.eqb_spec a 0), (Z.eqb_spec b 0); cbn [andb]; subst; [congruence| | |]; apply Cmult_0_l. }
  unfold rcc. change (sumC 3) with (sumC (0 + 1 + 1 + 1)). rewrite !sumC_S by lia. change (sumC 0) with (fun _ : Z -> C => RtoC 0). cbv beta.
  rewrite !CS, !D1_3. unfold prep, px, block. cbn [get mk2]. change (0 + 1)%Z with 1%Z. change (1 + 1)%Z with 2%Z. cbn [Z.ltb Z.compare Pos.compare Pos.compare_cont andb].
  rewrite <- ?RtoC_mult, <- ?RtoC_plus. f_equal.
  assert (C2 : forall x, cos (2 * PI * ((0 - x) / 3)) + cos (2 * PI * ((1 - x) / 3)) = cos (2 * PI * ((x - 1 / 2) / 3))).
  { intros x. assert (PP := PI_RGT_0). rewrite form1. replace ((2 * PI * ((0 - x) / 3) - 2 * PI * ((1 - x) / 3)) / 2) with (- (PI / 3)) by field. rewrite cos_neg, cos_PI3.
    replace ((2 * PI * ((0 - x) / 3) + 2 * PI * ((1 - x) / 3)) / 2) with (- (2 * PI * ((x - 1 / 2) / 3))) by field. rewrite cos_neg. field. }
  rewrite <- (C2 s), <- (C2 t). field.
Qed.

Example C123_nonvacuous :
  forall has_fftw nthreads use_np, let im1 := dot 3 3 0 0 in
  register_images has_fftw im1 block 4 false true false None nthreads use_np = Ok (nums [1 / 2; 1 / 2] ++ err_out true 4) /\
  exists dx dy e, register_images_fp (float_arith [[3]; [3]]%Z) (float_arith [[2; 3]; [2; 3]]%Z) (float_zarith [[3]; [3]]%Z) float_sarith im1 block 4 true false None = Ok (nums [dx; dy; e; e]) /\
    Rabs (dx - 1 / 2) <= 33 * / 2 ^ 53 /\ Rabs (dy - 1 / 2) <= 33 * / 2 ^ 53 /\ Rabs (e - 1 / 4) <= / 2 ^ 53.
Proof.
  intros hf nt np im1.
  assert (P3 : pos_shape [3]%Z) by (apply pos_shape_cons; split; [lia|constructor]).
  assert (P23 : pos_shape [2; 3]%Z) by (apply pos2; lia).
  destruct (C112_nonvacuous [[3]; [3]]%Z ltac:(repeat constructor; auto)) as [HA HB].
  destruct (C112_nonvacuous [[2; 3]; [2; 3]]%Z ltac:(repeat constructor; auto)) as [HA' _].
  assert (U64 := u64_pos). assert (US : u64 <= / 10 ^ 8) by (rewrite u64_val; apply Rinv_le_contravar; cbn [pow]; lra).
  set (m := fine_roundings 1 [3]%Z [3]%Z). assert (Em : INR m <= 100) by (replace 100 with (INR 100) by (rewrite INR_IZR_INZ; reflexivity); apply le_INR; vm_compute; lia).
  assert (PU := PI_4). assert (PL := PI_RGT_0).
  set (eps := 2 * u64 * (INR m + 5 * (PI * 6) + 1)).
  assert (He : 0 <= eps <= 1 / 100000).
  { unfold eps. assert (0 <= INR m) by apply pos_INR. split; [apply Rmult_le_pos; lra|]. refine (Rle_trans _ (2 * / 10 ^ 8 * 221) _ _ _); [apply Rmult_le_compat; lra|cbn [pow]; lra]. }
  assert (E11 : 1 <= (1 + eps) ^ 11 <= 1001 / 1000) by (split; [apply pow_R1_Rle; lra|]; refine (Rle_trans _ ((1 + 1 / 100000) ^ 11) _ _ _); [apply pow_incr; lra|cbn [pow]; lra]).
  assert (E13 : 1 <= (1 + eps) ^ 13 <= 1001 / 1000) by (split; [apply pow_R1_Rle; lra|]; refine (Rle_trans _ ((1 + 1 / 100000) ^ 13) _ _ _); [apply pow_incr; lra|cbn [pow]; lra]).
  cbn [pow] in US.
  assert (M12 : 1 <= (1 + u64) ^ 12 <= 1 + 1 / 1000000) by (split; [apply pow_R1_Rle; lra|]; refine (Rle_trans _ ((1 + 1 / 100000000) ^ 12) _ _ _); [apply pow_incr; lra|cbn [pow]; lra]).
  assert (M7 : 1 <= (1 + u64) ^ 7 <= 1 + 1 / 1000000) by (split; [apply pow_R1_Rle; lra|]; refine (Rle_trans _ ((1 + 1 / 100000000) ^ 7) _ _ _); [apply pow_incr; lra|cbn [pow]; lra]).
  assert (PE : 0 <= phase_error u64 3 <= 1 / 10000).
  { unfold phase_error, reach. split; [apply Rmult_le_pos; lra|]. refine (Rle_trans _ (4 * (3 / 2 + 4) * (1 / 1000000)) _ _ _); [|lra]. apply Rmult_le_compat; [apply Rmult_le_pos; lra|lra|apply Rmult_le_compat; lra|lra]. }
  assert (TS : forall h, pixel_sum 3 3 h = (h 0%Z 0%Z + h 0%Z 1%Z + h 0%Z 2%Z) + (h 1%Z 0%Z + h 1%Z 1%Z + h 1%Z 2%Z) + (h 2%Z 0%Z + h 2%Z 1%Z + h 2%Z 2%Z)).
  { intros h. unfold pixel_sum. change 3%Z with (0 + 1 + 1 + 1)%Z. rewrite !sumR_S, !sumR_0 by lia. cbn. ring. }
  assert (W1 : pixel_sum 3 3 (weight false im1 3 3) = 1).
  { rewrite TS. unfold weight, im1, dot. cbn [get mk2 Z.eqb Pos.eqb andb]. rewrite Rabs_R0, Rabs_R1. ring. }
  assert (W2 : pixel_sum 3 3 (weight false block 3 3) = 4).
  { rewrite TS. unfold weight, block. cbn [get mk2 Z.ltb Z.compare Pos.compare Pos.compare_cont andb]. rewrite Rabs_R0, Rabs_R1. ring. }
  set (phi := fun t => (2 + 2 * cos (2 * PI * ((t - 1 / 2) / 3))) / 3).
  assert (PB : forall t, 0 <= phi t <= 4 / 3) by (intros t; unfold phi; assert (Q := COS_bound (2 * PI * ((t - 1 / 2) / 3))); lra).
  assert (CR : forall s t, Cmod (rcc 3 3 (prep false im1 3 3) (prep false block 3 3) s t) = phi s * phi t).
  { intros s t. unfold im1. rewrite block_rcc, Cmod_R. apply Rabs_right, Rle_ge. fold (phi s) (phi t). apply Rmult_le_pos; apply PB. }
  assert (PEAK : phi (1 / 2) = 4 / 3) by (unfold phi; replace (2 * PI * ((1 / 2 - 1 / 2) / 3)) with 0 by field; rewrite cos_0; field).
  (* half-pixel grid *)
  assert (PH : forall s, (- 3 <= s < 3)%Z -> s <> 1%Z -> phi (IZR s / 2) <= 1).
  { intros s Hs N. assert (Q : cos (2 * PI * ((IZR s / 2 - 1 / 2) / 3)) <= 1 / 2); [|unfold phi; lra].
    assert (s = -3 \/ s = -2 \/ s = -1 \/ s = 0 \/ s = 2)%Z as [-> | [-> | [-> | [-> | ->]]]] by lia.
    - rewrite <- cos_neg. replace (- (2 * PI * ((IZR (-3) / 2 - 1 / 2) / 3))) with (PI / 3 + PI) by field. rewrite neg_cos, cos_PI3. lra.
    - rewrite <- cos_neg. replace (- (2 * PI * ((IZR (-2) / 2 - 1 / 2) / 3))) with PI by field. rewrite cos_PI. lra.
    - rewrite <- cos_neg. replace (- (2 * PI * ((IZR (-1) / 2 - 1 / 2) / 3))) with (- (PI / 3) + PI) by field. rewrite neg_cos, cos_neg, cos_PI3. lra.
    - rewrite <- cos_neg. replace (- (2 * PI * ((0 / 2 - 1 / 2) / 3))) with (PI / 3) by field. rewrite cos_PI3. lra.
    - replace (2 * PI * ((2 / 2 - 1 / 2) / 3)) with (PI / 3) by field. rewrite cos_PI3. lra. }
  (* quarter-pixel grid *)
  assert (S3 : sqrt 3 <= 175 / 100) by (rewrite <- (sqrt_Rsqr (175 / 100)) by lra; apply sqrt_le_1_alt; unfold Rsqr; lra).
  assert (L6 : ceilR (4 * (3 / 2)) = 6%Z) by (replace (4 * (3 / 2)) with (IZR 6) by (cbn; lra); apply ceilR_IZR).
  assert (R2 : roundR (IZR 1 / 2 * 4) = 2%Z) by (apply roundR_near; replace (IZR 1 / 2 * 4 - IZR 2) with 0 by field; rewrite Rabs_R0; lra).
  assert (FW : forall s, fine_window 4 (IZR 1 / 2) s <-> (0 <= s <= 5)%Z) by (intros s; unfold fine_window; rewrite L6, R2; change ((6 - 1) / 2)%Z with 2%Z; change (6 / 2)%Z with 3%Z; lia).
  assert (PF : forall s, (0 <= s <= 5)%Z -> s <> 2%Z -> phi (IZR s / 4) <= 5 / 4).
  { intros s Hs N. assert (Q : cos (2 * PI * ((IZR s / 4 - 1 / 2) / 3)) <= 175 / 200); [|unfold phi; lra].
    assert (s = 0 \/ s = 1 \/ s = 3 \/ s = 4 \/ s = 5)%Z as [-> | [-> | [-> | [-> | ->]]]] by lia.
    - rewrite <- cos_neg. replace (- (2 * PI * ((0 / 4 - 1 / 2) / 3))) with (PI / 3) by field. rewrite cos_PI3. lra.
    - rewrite <- cos_neg. replace (- (2 * PI * ((1 / 4 - 1 / 2) / 3))) with (PI / 6) by field. rewrite cos_PI6. lra.
    - replace (2 * PI * ((3 / 4 - 1 / 2) / 3)) with (PI / 6) by field. rewrite cos_PI6. lra.
    - replace (2 * PI * ((4 / 4 - 1 / 2) / 3)) with (PI / 3) by field. rewrite cos_PI3. lra.
    - replace (2 * PI * ((5 / 4 - 1 / 2) / 3)) with (PI / 2) by field. rewrite cos_PI2. lra. }
  destruct (C123_integer_factor float_sarith 3 (3 + 3 + 6) 4 ltac:(reflexivity) ltac:(lia) ltac:(lia) ltac:(lia) ltac:(lia)) as [HH HG].
  assert (NE : forall s t p : Z, (s, t) <> (p, p) -> s <> p \/ t <> p) by (intros s t p N; destruct (Z.eq_dec s p) as [->|]; [right; intros ->; apply N; reflexivity|left; auto]).
  destruct (C123_double 1 [3]%Z [3]%Z (float_arith [[3]; [3]]%Z) (float_arith [[2; 3]; [2; 3]]%Z) (float_zarith [[3]; [3]]%Z) float_sarith (PI * 6) hf im1 block 4 true false None nt np 1 1 2 2)
    as [E1 [dx [dy [e [E2 [O1 [O2 O3]]]]]]]; change (prodZ [3])%Z with 3%Z; auto; try lia; try lra; try exact I.
  - apply C113_nonvacuous.
  - fold m eps. lra.
  - rewrite L6. exact HH.
  - unfold reach. rewrite Rmult_assoc. apply Rmult_le_compat_l; lra.
  - unfold reach. rewrite Rmult_assoc. apply Rmult_le_compat_l; lra.
  - fold m eps. intros s t Hs Ht N. rewrite !CR. unfold peak_error. rewrite W1, W2. replace (IZR 1 / 2) with (1 / 2) by reflexivity. rewrite PEAK.
    assert (Q : phi (IZR s / 2) * phi (IZR t / 2) <= 4 / 3).
    { destruct (NE s t 1%Z N) as [K|K]; [assert (X := PH s Hs K)|assert (X := PH t Ht K)]; assert (Y1 := PB (IZR s / 2)); assert (Y2 := PB (IZR t / 2)).
      - replace (4 / 3) with (1 * (4 / 3)) by ring. apply Rmult_le_compat; lra.
      - replace (4 / 3) with (4 / 3 * 1) by ring. apply Rmult_le_compat; lra. }
    lra.
  - apply FW. lia.
  - apply FW. lia.
  - fold m eps. intros s t Hs Ht N. apply FW in Hs. apply FW in Ht. rewrite !CR. unfold fine_error. rewrite W1, W2. replace (IZR 2 / 4) with (1 / 2) by field. rewrite PEAK.
    assert (Q : phi (IZR s / 4) * phi (IZR t / 4) <= 5 / 3).
    { destruct (NE s t 2%Z N) as [K|K]; [assert (X := PF s Hs K)|assert (X := PF t Ht K)]; assert (Y1 := PB (IZR s / 4)); assert (Y2 := PB (IZR t / 4)).
      - replace (5 / 3) with (5 / 4 * (4 / 3)) by field. apply Rmult_le_compat; lra.
      - replace (5 / 3) with (4 / 3 * (5 / 4)) by field. apply Rmult_le_compat; lra. }
    assert (F : ((1 + eps) ^ 13 + phase_error u64 3 + phase_error u64 3) * (1 + u64) ^ 7 <= (1001 / 1000 + 1 / 10000 + 1 / 10000) * (1 + 1 / 1000000)) by (apply Rmult_le_compat; lra). lra.
  - replace (IZR 2 / 4) with (1 / 2) in E1, O1, O2 by field. split; [exact E1|]. exists dx, dy, e. split; [exact E2|]. change (prodZ [3])%Z with 3%Z in O1, O2.
    split; [lra|]. split; [lra|]. refine (Rle_trans _ _ _ O3 _). assert (0 < / 2 ^ 53) by (apply Rinv_0_lt_compat, pow_lt; lra). lra.
Qed.
