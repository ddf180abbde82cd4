(** C124, second part: convolvend in double precision *)
From Coq Require Import ZArith Lia List Reals Lra Bool.
From Coquelicot Require Import Complex.
From Verif Require Import Base NDim DFT Kernel Num Py Sum2 M_fast_ffts M_shift M_convolve M_correlate Arg M_chi2 M_xcorr M_register M_rounding M_rounding3 M_rounding7 M_rounding8 M_float
  Spec L_shift L_convolve P_rounding L_rounding3 L_rounding7 L_rounding8 P_convolve P_convolve2 L_chi2shift L_float P_float P_rounding3 P_float2 P_rounding8.
Import ListNotations.
Open Scope R_scope.

(** roundings in one transform of the padded image, or in the sum of the kernel *)
Definition conv_roundings (q : nat) (pss : list (list Z)) (ksh : list Z) : nat := Nat.max (roundingsN q pss + 4) (Nat.max q (Z.to_nat (prodZ ksh))).

Lemma double_accurate q pss A S ksh : let eps := 2 * u64 * INR (conv_roundings q pss ksh) in
  Forall pos_shape pss -> double_arith q pss A -> double_scalar q (Z.to_nat (prodZ ksh)) S -> eps <= 1 / 2 ->
  accurate eps (map prodZ pss) A /\ accurate_scalar eps (Z.to_nat (prodZ ksh)) S.
Proof.
  intros eps Hp HA HS He. assert (U := u64_pos). set (m := conv_roundings q pss ksh) in *.
  assert (UM : forall n, (n <= m)%nat -> (1 + u64) ^ n - 1 <= eps).
  { intros n Hn. assert (Q := C112_roundoff m ltac:(unfold eps in He; lra)). assert (Q2 := up_mono n m Hn). unfold eps. lra. }
  split.
  - apply (accurate_weaken ((1 + u64) ^ (roundingsN q pss + 4) - 1)); [exact (C112_fft_is_accurate q pss A Hp HA)|]. apply UM. unfold m, conv_roundings. lia.
  - apply (scalar_weaken _ _ _ _ (C113_double_is_accurate q _ S HS)). apply UM. unfold m, conv_roundings. lia.
Qed.

(** With any mixed-radix FFT along every axis of the padded image and sums in any order, convolvend in double precision is the documented
    convolution up to the errors of C124 with eps = 2m 2^-53. *)
Theorem C124_double :
  forall q pss A S (array kernel : arr num) b v crop fftshift fft_pad psf_pad interpolate_nan ignore_edge_zeros min_wt nk nu,
  let N := map prodZ pss in let eps := 2 * u64 * INR (conv_roundings q pss (shape kernel)) in
  Forall pos_shape pss -> double_arith q pss A -> double_scalar q (Z.to_nat (prodZ (shape kernel))) S -> eps <= 1 / 2 ->
  pos_shape (shape array) -> pos_shape (shape kernel) -> length (shape array) = length (shape kernel) -> shape array <> [] ->
  b <> BExtend -> divided_by kernel nk nu -> nu <> 0 ->
  padded_shape b fft_pad psf_pad (shape array) (shape kernel) N -> divisible eps kernel nk ->
  let bg := match b with BWrap => 0 | _ => v end in
  exists out,
    convolvend_fp A S true true array kernel b (Fin v) crop false fftshift fft_pad psf_pad interpolate_nan ignore_edge_zeros min_wt nk = Ok (ConvReal out) /\
    shape out = (if crop then shape array else N) /\
    forall x, inb (shape out) x ->
      let X := if crop then addl x (offset N (shape array)) else x in
      let inside := inbb (shape array) (subl X (offset N (shape array))) in
      let image := fun i => pix (get array i) in
      let value := conv_spec kernel (padded N (shape array) image bg) X / nu in
      let outside_weight := if ignore_edge_zeros then 0 else 1 in
      let weights := valid_weight interpolate_nan array in
      let weight := if inside then Rmax 0 (conv_spec kernel (padded N (shape array) weights outside_weight) X / ksum kernel) else outside_weight in
      let dw := if inside then weight_error eps (mass N (shape array) weights outside_weight) kernel nk else 0 in
      (interpolate_nan = false /\ ignore_edge_zeros = false \/ clearly_not_normalised eps kernel nk ->
         exists r, get out x = Fin r /\ Rabs (r - value) <= value_error eps (mass N (shape array) image bg) kernel nk nu) /\
      (interpolate_nan = true \/ ignore_edge_zeros = true -> clearly_normalised eps kernel nk -> ksum kernel <> 0 -> weights_doubt eps kernel nk < 1 ->
         (weight + dw < min_wt -> get out x = NaN) /\
         (min_wt <= weight - dw -> 0 < weight - dw ->
            exists r, get out x = Fin r /\ Rabs (r - value / weight) <= quotient_error eps (mass N (shape array) image bg) kernel nk nu weight dw) /\
         (inside = false -> ignore_edge_zeros = true -> min_wt = 0 -> get out x = Fin 0)).
Proof.
  intros q pss A S array kernel b v crop fs fp pp interp edge mw nk nu N eps Hp HA HS He Ha Hk Hl Hne Hb Hdiv Hnu HN Hdv bg.
  destruct (double_accurate q pss A S (shape kernel) Hp HA HS He) as [EA ES].
  exact (conv_main eps A S array kernel b v fp pp nk nu N Ha Hk Hl Hne Hb Hdiv Hnu HN EA ES Hdv crop fs interp edge mw).
Qed.
Print Assumptions C124_double.

(** without reweighting and normalisation: at most 5 eps times the moduli *)
Theorem C124_small :
  forall eps m kernel, 0 <= eps <= 1 / 16 -> 0 <= m -> value_error eps m kernel NkFalse 1 <= 5 * eps * (m * kabs kernel).
Proof.
  intros eps m kernel He Hm. assert (K := kabs_nonneg kernel). unfold value_error, kernel_rounding. rewrite Rabs_R1. unfold Rdiv. rewrite Rinv_1, !Rmult_1_r.
  replace (5 * eps * (m * kabs kernel)) with (m * kabs kernel * (5 * eps)) by ring. apply Rmult_le_compat_l; [apply Rmult_le_pos; auto|].
  assert (E2 : eps * eps <= eps / 16) by (assert (Q := Rmult_le_compat_l eps eps (1 / 16)); lra).
  assert (E3 : eps * eps * eps <= eps / 256) by (assert (Q := Rmult_le_compat_r eps (eps * eps) (eps / 16)); lra).
  assert (E4 : eps * eps * eps * eps <= eps / 4096) by (assert (Q := Rmult_le_compat_r eps (eps * eps * eps) (eps / 256)); lra).
  replace ((1 + eps) ^ 4) with (1 + 4 * eps + 6 * (eps * eps) + 4 * (eps * eps * eps) + eps * eps * eps * eps) by ring. lra.
Qed.
Print Assumptions C124_small.

Example C124_double_nonvacuous : let a := mk1 4 (fun _ => Fin 1) in let k := mk1 3 (fun _ => Fin 1) in
  let eps := 2 * u64 * INR (conv_roundings 1 [[7]]%Z (shape k)) in
  double_arith 1 [[7]]%Z (float_arith [[7]]%Z) /\ double_scalar 1 (Z.to_nat (prodZ (shape k))) float_sarith /\ eps <= / 1000 /\
  divided_by k NkTrue 3 /\ divisible eps k NkTrue /\ padded_shape BFill false false (shape a) (shape k) (map prodZ [[7]]%Z).
Proof.
  cbv zeta. set (a := mk1 4 (fun _ => Fin 1)). set (k := mk1 3 (fun _ => Fin 1)).
  assert (KS : ksum k = 3) by (cbv - [Rplus Rmult IZR]; ring).
  assert (KA : kabs k = 3) by (cbv - [Rplus Rmult IZR Rabs]; rewrite !Rabs_R1; ring).
  assert (CO : condition k = 1) by (unfold condition; rewrite KS, KA, Rabs_right by lra; field).
  assert (E : 2 * u64 * INR (conv_roundings 1 [[7]]%Z (shape k)) <= / 1000).
  { rewrite u64_val, INR_IZR_INZ. assert (Q : (Z.of_nat (conv_roundings 1 [[7]]%Z (shape k)) <= 1000)%Z) by (vm_compute; discriminate). apply IZR_le in Q.
    apply (Rmult_le_reg_r (2 ^ 53)); [apply pow_lt; lra|]. replace (2 * / 2 ^ 53 * IZR (Z.of_nat (conv_roundings 1 [[7]]%Z (shape k))) * 2 ^ 53) with (2 * IZR (Z.of_nat (conv_roundings 1 [[7]]%Z (shape k)))) by (field; apply pow_nonzero; lra).
    cbn [pow]. lra. }
  split; [apply C112_nonvacuous; repeat constructor|]. split; [apply C113_nonvacuous|]. split; [exact E|]. split; [exact (eq_sym KS)|].
  split; [unfold divisible; rewrite CO; lra|reflexivity].
Qed.
