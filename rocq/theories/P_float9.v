(** C125, second part: shiftnd and shift2d in double precision *)
From Coq Require Import ZArith Lia List Reals Lra Bool.
From Coquelicot Require Import Complex.
From Verif Require Import Base NDim DFT Kernel Num Py Sum2 M_fast_ffts M_shift M_scale M_convolve M_correlate Arg M_chi2 M_xcorr M_register M_rounding M_rounding2 M_rounding3 M_rounding9 M_float
  Spec L_shift P_shift P_rounding P_rounding2 L_iterzoom2 L_rounding3 L_rounding6 L_float P_float P_float2 P_float6 P_rounding9.
Import ListNotations.
Open Scope R_scope.

Lemma double_exp q pss B T : 0 <= T -> double_zarith q pss B -> accurate_exp (2 * u64 * (5 * T + 1)) T B.
Proof.
  intros HT [_ [HC _]] t Ht. assert (U := u64_pos). destruct (HC t) as [t' [H ->]].
  assert (L := cis_lip t' t). assert (R1 := cis_rnd t'). assert (G := C112_roundoff 5). assert (E5 : INR 5 = 5) by (rewrite INR_IZR_INZ; reflexivity).
  assert (S5 := u64_small 5 ltac:(lia)). rewrite E5 in *. specialize (G ltac:(lra)). assert (P1 := up_ge1 5).
  assert (Q : ((1 + u64) ^ 5 - 1) * Rabs t <= 2 * u64 * 5 * T) by (apply Rmult_le_compat; auto using Rabs_pos; lra).
  match goal with |- Cmod (Cminus ?z _) <= _ => replace (Cminus z (cis t)) with (Cplus (Cminus z (cis t')) (Cminus (cis t') (cis t))) by ring end.
  refine (Rle_trans _ _ _ (Cmod_triangle _ _) _). lra.
Qed.
Lemma rounds_double S : (forall x, sa_rd S x = rnd64 x) -> rounds u64 S.
Proof. intros H. split; [left; exact u64_pos|]. intros x. rewrite H. apply rnd64_err. Qed.
Lemma largest_phase_pos offset phase : 0 <= largest_phase offset phase.
Proof.
  assert (PP := PI_RGT_0). unfold largest_phase. assert (Q := Rabs_pos phase).
  assert (0 <= fold_right Rplus 0 (map Rabs offset)) by (induction offset as [|x l IHl]; cbn; [lra|assert (R := Rabs_pos x); lra]).
  assert (0 <= PI * fold_right Rplus 0 (map Rabs offset)) by (apply Rmult_le_pos; lra). lra.
Qed.
Lemma small_power n : (n <= 64)%nat -> (1 + u64) ^ (n + 7) - 1 <= 2 * u64 * INR (n + 7) /\ (1 + u64) ^ (n + 7) <= 2.
Proof. intros Hn. assert (U := u64_pos). assert (S9 := u64_small (n + 7) ltac:(lia)). assert (G := C112_roundoff (n + 7) ltac:(lra)). split; [exact G|]. lra. Qed.

(** error of the transforms of an image whose axes are factored as in [pss], and of the exponentials, in double precision *)
Definition shift_eps (q : nat) (pss : list (list Z)) (offset : list R) (phase : R) : R := 2 * u64 * (INR (roundingsN q pss + 4) + 10 * largest_phase offset phase + 1).

(** With any mixed-radix FFT along every axis and every operation rounded to the nearest double, shiftnd and shift2d are within the errors of C125. *)
Theorem C125_double :
  forall q pss A B S has_fftw data offset offset' d phase nthreads use_np ret_abs ret_real,
  let eps := shift_eps q pss offset' phase in
  Forall pos_shape pss -> double_arith q pss A -> double_zarith q pss B -> (forall x, sa_rd S x = rnd64 x) -> INR (roundingsN q pss + 4) * u64 <= 1 / 2 ->
  shape data = map prodZ pss -> within_each d offset' offset -> (length offset' <= 64)%nat ->
  match shiftnd has_fftw data offset phase nthreads use_np ret_abs ret_real with
  | Ok r => exists r', shiftnd_fp A B S data offset' phase ret_abs ret_real = Ok r' /\
              within_pixelwise (shift_error eps u64 data offset' phase d ret_abs ret_real) r' r
  | Raise e => shiftnd_fp A B S data offset' phase ret_abs ret_real = Raise e
  end.
Proof.
  intros q pss A B S hf data off off' d ph nt np ra rr eps Hp HA HB HS Hm Hs W Hl. assert (U := u64_pos).
  assert (LP := largest_phase_pos off' ph). destruct (small_power (length off') Hl) as [_ P2].
  apply (C125_shiftnd eps u64 (2 * largest_phase off' ph) A B S); auto.
  - rewrite Hs. apply (accurate_weaken ((1 + u64) ^ (roundingsN q pss + 4) - 1)); [exact (C112_fft_is_accurate q pss A Hp HA)|].
    assert (G := C112_roundoff _ Hm). unfold eps, shift_eps. assert (Q := Rmult_le_pos u64 _ ltac:(lra) LP). lra.
  - intros t Ht. refine (Rle_trans _ _ _ (double_exp q pss B (2 * largest_phase off' ph) ltac:(lra) HB t Ht) _). unfold eps, shift_eps.
    assert (I := pos_INR (roundingsN q pss + 4)). assert (Q := Rmult_le_pos u64 _ ltac:(lra) I). lra.
  - apply rounds_double. exact HS.
  - rewrite Rmult_comm. apply Rmult_le_compat_r; auto.
Qed.
Print Assumptions C125_double.

Theorem C125_double_shift2d :
  forall q pss A B S has_fftw data deltax deltay deltax' deltay' dx dy phase nthreads use_np ret_abs ret_real,
  let eps := shift_eps q pss [deltay'; deltax'] phase in
  Forall pos_shape pss -> double_arith q pss A -> double_zarith q pss B -> (forall x, sa_rd S x = rnd64 x) -> INR (roundingsN q pss + 4) * u64 <= 1 / 2 ->
  shape data = map prodZ pss -> Rabs (deltax' - deltax) <= dx -> Rabs (deltay' - deltay) <= dy ->
  match shift2d has_fftw data deltax deltay phase nthreads use_np ret_abs ret_real with
  | Ok r => exists r', shift2d_fp A B S data deltax' deltay' phase ret_abs ret_real = Ok r' /\
              within_pixelwise (shift_error eps u64 data [deltay'; deltax'] phase [dy; dx] ret_abs ret_real) r' r
  | Raise e => shift2d_fp A B S data deltax' deltay' phase ret_abs ret_real = Raise e
  end.
Proof.
  intros q pss A B S hf data ax ay ax' ay' dx dy ph nt np ra rr eps Hp HA HB HS Hm Hs Hx Hy. assert (U := u64_pos).
  assert (LP := largest_phase_pos [ay'; ax'] ph). destruct (small_power 2 ltac:(lia)) as [_ P2].
  apply (C125_shift2d eps u64 (2 * largest_phase [ay'; ax'] ph) A B S); auto.
  - rewrite Hs. apply (accurate_weaken ((1 + u64) ^ (roundingsN q pss + 4) - 1)); [exact (C112_fft_is_accurate q pss A Hp HA)|].
    assert (G := C112_roundoff _ Hm). unfold eps, shift_eps. assert (Q := Rmult_le_pos u64 _ ltac:(lra) LP). lra.
  - intros t Ht. refine (Rle_trans _ _ _ (double_exp q pss B (2 * largest_phase [ay'; ax'] ph) ltac:(lra) HB t Ht) _). unfold eps, shift_eps.
    assert (I := pos_INR (roundingsN q pss + 4)). assert (Q := Rmult_le_pos u64 _ ltac:(lra) I). lra.
  - apply rounds_double. exact HS.
  - rewrite Rmult_comm. apply Rmult_le_compat_r; auto.
Qed.
Print Assumptions C125_double_shift2d.

(** the error of a real shifted image with the offsets given exactly, in units of 2^-53 times the sum of the moduli: 12 times the roundings of the
    transform, and at most 120 + 2 (number of axes) per radian of phase *)
Theorem C125_double_size :
  forall q pss data offset phase ret_abs,
  let eps := shift_eps q pss offset phase in
  eps <= 1 / 16 -> (length offset <= 64)%nat ->
  shift_error eps u64 data offset phase (map (fun _ => 0) offset) ret_abs true <=
    abs_sumC data * (12 * (INR (roundingsN q pss + 4) + 1) + (148 + 4 * INR (length offset)) * largest_phase offset phase) * / 2 ^ 53.
Proof.
  intros q pss data off ph ra eps He Hl. rewrite <- u64_val. assert (U := u64_pos). assert (LP := largest_phase_pos off ph).
  assert (I := pos_INR (roundingsN q pss + 4)). assert (e0 : 0 <= eps) by (unfold eps, shift_eps; apply Rmult_le_pos; lra).
  destruct (small_power (length off) Hl) as [P1 P2]. assert (PG := up_ge1 (length off + 7)).
  assert (Z0 : fold_right Rplus 0 (map (fun _ : R => 0) off) = 0) by (clear; induction off as [|z k IH]; cbn; [reflexivity|rewrite IH; ring]).
  assert (KE : kernel_error eps u64 off ph (map (fun _ => 0) off) = eps + largest_phase off ph * ((1 + u64) ^ (length off + 7) - 1)) by (unfold kernel_error; rewrite Z0; ring).
  assert (K0 : 0 <= largest_phase off ph * ((1 + u64) ^ (length off + 7) - 1)) by (apply Rmult_le_pos; lra).
  assert (K1 := Rmult_le_compat_l _ _ _ LP P1). rewrite plus_INR in K1. replace (INR 7) with 7 in K1 by (rewrite INR_IZR_INZ; reflexivity).
  refine (Rle_trans _ _ _ (C125_small eps u64 data off ph _ ra (conj e0 He) ltac:(rewrite KE; lra)) _). rewrite KE, Rmult_assoc. apply Rmult_le_compat_l.
  - unfold abs_sumC. apply P_rounding.l1_nonneg.
  - unfold eps, shift_eps in *. set (p := largest_phase off ph) in *. set (m := INR (roundingsN q pss + 4)) in *. set (l := INR (length off)) in *.
    replace ((12 * (m + 1) + (148 + 4 * l) * p) * u64) with (4 * (2 * u64 * (m + 10 * p + 1)) + 2 * (2 * u64 * (m + 10 * p + 1) + p * (2 * u64 * (l + 7)))) by ring. lra.
Qed.
Print Assumptions C125_double_size.

Example C125_double_nonvacuous : let img := mk1 2 (fun i => if (i =? 0)%Z then Fin 1 else Fin 3) in
  double_arith 1 [[2]]%Z (float_arith [[2]]%Z) /\ double_zarith 1 [[2]]%Z (float_zarith [[2]]%Z) /\ (forall x, sa_rd float_sarith x = rnd64 x) /\
  INR (roundingsN 1 [[2]]%Z + 4) * u64 <= 1 / 2 /\ shape (of_num img) = map prodZ [[2]]%Z /\ within_each [0] [/ 2] [/ 2] /\ shift_eps 1 [[2]]%Z [/ 2] 0 <= 1 / 16.
Proof.
  cbv zeta. destruct (C112_nonvacuous [[2]]%Z ltac:(repeat constructor)) as [H1 H2]. split; [exact H1|]. split; [exact H2|]. split; [reflexivity|].
  assert (U := u64_pos). assert (N : (roundingsN 1 [[2]]%Z + 4 <= 100)%nat) by (apply Nat.leb_le; vm_compute; reflexivity).
  assert (Q := u64_small _ N). split; [lra|]. split; [reflexivity|]. split; [constructor; [replace (/ 2 - / 2) with 0 by ring; rewrite Rabs_R0; lra|constructor]|].
  unfold shift_eps. assert (LP : largest_phase [/ 2] 0 <= 2) by (unfold largest_phase; cbn [map fold_right]; rewrite Rabs_R0, Rabs_right by lra; assert (PP := PI_4); lra).
  apply le_INR in N. replace (INR 100) with 100 in N by (rewrite INR_IZR_INZ; reflexivity).
  assert (US : u64 <= / 10000) by (rewrite u64_val; apply Rinv_le_contravar; [lra|]; cbn [pow]; lra).
  apply Rle_trans with (2 * / 10000 * (100 + 10 * 2 + 1)); [|lra]. apply Rmult_le_compat; [lra| |lra|lra].
  assert (I := pos_INR (roundingsN 1 [[2]]%Z + 4)). assert (P0 := largest_phase_pos [/ 2] 0). lra.
Qed.
