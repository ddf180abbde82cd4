(** C120, second part: an image and its roll, and double precision *)
From Coq Require Import ZArith Lia List Reals Lra Bool Permutation.
From Coquelicot Require Import Complex.
From Verif Require Import Base NDim DFT Kernel Num Py Sum2 M_fast_ffts M_shift M_scale M_zoom M_upsample M_convolve M_correlate Arg M_chi2 M_xcorr M_register M_rounding M_rounding2 M_rounding3 M_float
  Spec L_shift L_scale L_upsample L_convolve Spec2 Spec3 Spec4 L_correlate L_chi2 L_register L_register2 L_register3
  L_chi2shift L_fshift L_xcorr P_xcorr P_xcorr2 P_xcorr3 P_chi2map P_chi2shift P_register P_noise P_rounding P_rounding2 L_iterzoom2 L_rounding3 L_float P_float P_rounding3 P_float2 M_rounding5 P_rounding5.
Import ListNotations.
Open Scope R_scope.

Lemma weight_sum_nonneg zm a ny nx : (0 < ny)%Z -> (0 < nx)%Z -> 0 <= pixel_sum ny nx (weight zm a ny nx).
Proof.
  intros Hy Hx. apply sum2_nonneg. intros i j. unfold weight. destruct (get a [i; j]); [|lra]. assert (Q := Rabs_pos r).
  destruct zm; [|lra]. assert (0 <= abs_mean a ny nx); [|lra]. unfold abs_mean. apply Rmult_le_pos; [apply sum2_nonneg; intros; apply Rabs_pos|].
  assert (C : 0 <= valid_count a ny nx) by (unfold valid_count; apply sum2_nonneg; intros i' j'; destruct (get a [i'; j']); lra).
  destruct (Req_EM_T (valid_count a ny nx) 0) as [->|]; [rewrite Rinv_0; lra|left; apply Rinv_0_lt_compat; lra].
Qed.

(** a roll: the exact offsets are the roll (plus 1/2 along odd axes, C46), the computed ones are this close *)
Definition roll_error (eps whole d en ed : R) : R := (1 + eps) ^ 2 * (en / (d - ed)) + eps * Rabs whole.
Theorem C120_roll :
  forall A S eps e agpy im1 im2 er1 er2 zeromean nthreads use_np allow_huge ny nx dy dx,
  is_roll im1 im2 ny nx dy dx -> size_ok e allow_huge ny nx -> errim_ok er1 ny nx -> errim_ok er2 ny nx ->
  interior_shift ny dy -> interior_shift nx dx ->
  accurate eps [ny; nx] A -> accurate_scalar eps (Z.to_nat (ny * nx)) S ->
  let f := prep zeromean im1 ny nx in let c := fun u v => ccf ny nx f f u v / IZR (ny * nx) in
  let M := corr_size zeromean im1 im2 ny nx in
  (* no other roll of the image resembles it within the rounding errors *)
  (forall s t, (s mod ny <> 0 \/ t mod nx <> 0)%Z -> c s t + 2 * (M * ((1 + eps) ^ 11 - 1)) < c 0%Z 0%Z) -> M * ((1 + eps) ^ 11 - 1) < c 0%Z 0%Z ->
  (* minus the determinant of the second derivatives of the autocorrelation is not lost in them either *)
  let d := 4 * (c 0%Z 0%Z - c 1%Z 0%Z) * (c 0%Z 0%Z - c 0%Z 1%Z) - ((c 1%Z (-1)%Z - c 1%Z 1%Z) / 2) ^ 2 in
  let en := 5 * M ^ 2 * ((1 + eps) ^ 30 - 1) in let ed := 17 * M ^ 2 * ((1 + eps) ^ 32 - 1) in
  ed < d ->
  exists x' y',
    cross_correlation_shifts e agpy im1 im2 er1 er2 None false false zeromean BWrap nthreads use_np allow_huge =
      Ok [XF (IZR dx + half_if_odd nx); XF (IZR dy + half_if_odd ny)] /\
    cross_correlation_shifts_rd A S (e_gb e) im1 im2 zeromean BWrap allow_huge = Ok [XF x'; XF y'] /\
    Rabs (x' - (IZR dx + half_if_odd nx)) <= roll_error eps (IZR dx + half_if_odd nx) d en ed /\
    Rabs (y' - (IZR dy + half_if_odd ny)) <= roll_error eps (IZR dy + half_if_odd ny) d en ed.
Proof.
  intros A S eps e agpy im1 im2 er1 er2 zm nt np huge ny nx dy dx Hr Hh He1 He2 Iy Ix HA HS f c M HB HC d en ed HD.
  assert (By := interior_bounds ny dy Iy). assert (Bx := interior_bounds nx dx Ix).
  assert (Hy : (3 <= ny)%Z) by lia. assert (Hx : (3 <= nx)%Z) by lia. assert (NP := size_pos ny nx ltac:(lia) ltac:(lia)).
  set (g := prep zm im2 ny nx).
  assert (Hg : forall y x, (0 <= y < ny)%Z -> (0 <= x < nx)%Z -> g y x = f ((y - dy) mod ny)%Z ((x - dx) mod nx)%Z).
  { intros y x HY HX. apply (prep_roll zm im1 im2 ny nx dy dx); auto; lia. }
  assert (Cg : forall u v, ccf ny nx f g (dy + u) (dx + v) = ccf ny nx f f u v).
  { intros u v. rewrite (ccf_roll ny nx f g dy dx) by (auto; lia). f_equal; lia. }
  assert (Cc : forall u v, ccf ny nx f g (dy + u) (dx + v) / IZR (ny * nx) = c u v) by (intros; rewrite Cg; reflexivity).
  assert (Sym : forall s t, c (- s)%Z (- t)%Z = c s t) by (intros s t; unfold c; rewrite (auto_sym ny nx f) by lia; reflexivity).
  assert (E1 : c (-1)%Z 0%Z = c 1%Z 0%Z) by exact (Sym 1%Z 0%Z).
  assert (E2 : c 0%Z (-1)%Z = c 0%Z 1%Z) by exact (Sym 0%Z 1%Z).
  assert (E3 : c (-1)%Z 1%Z = c 1%Z (-1)%Z) by exact (Sym 1%Z (-1)%Z).
  assert (E4 : c (-1)%Z (-1)%Z = c 1%Z 1%Z) by exact (Sym 1%Z 1%Z).
  assert (D0 : 0 <= ed).
  { unfold ed. apply Rmult_le_pos; [assert (Q := pow2_ge_0 M); lra|]. assert (e0 := proj1 HA). assert (1 <= (1 + eps) ^ 32) by (apply pow_R1_Rle; lra). lra. }
  destruct Hr as [S1 [S2 _]].
  assert (R := C120_cross_correlation_shifts A S eps e agpy im1 im2 er1 er2 zm nt np huge ny nx dy dx S1 S2 Hh He1 He2 Iy Ix HA HS). cbv beta zeta in R. fold f g M en ed in R.
  rewrite !Cc in R. rewrite E1, E2, E3, E4 in R.
  replace ((c 0%Z 1%Z - c 0%Z 1%Z) / 2) with 0 in R by field. replace ((c 1%Z 0%Z - c 1%Z 0%Z) / 2) with 0 in R by field. rewrite !Rmult_0_r, !Rmult_0_l, !Rminus_0_r in R.
  assert (DD : (1 / 4 * (c 1%Z (-1)%Z + c 1%Z (-1)%Z - c 1%Z 1%Z - c 1%Z 1%Z)) ^ 2 - (c 1%Z 0%Z + c 1%Z 0%Z - 2 * c 0%Z 0%Z) * (c 0%Z 1%Z + c 0%Z 1%Z - 2 * c 0%Z 0%Z) = - d) by (unfold d; field).
  rewrite DD in R. rewrite Rabs_Ropp, (Rabs_right d) in R by lra.
  destruct R as [x [y [x' [y' [R1 [R2 [R3 [R4 [R5 R6]]]]]]]]].
  - intros s t Q. replace (ccf ny nx f g s t / IZR (ny * nx)) with (c (s - dy)%Z (t - dx)%Z) by (rewrite <- Cc; do 2 f_equal; lia). apply HB. exact Q.
  - rewrite Rabs_right; [exact HC|]. assert (0 <= c 0%Z 0%Z); [|lra]. refine (Rle_trans _ _ _ _ (Rlt_le _ _ HC)). apply Rmult_le_pos.
    + unfold M, corr_size. apply Rmult_le_pos; [|left; apply Rinv_0_lt_compat; auto]. apply Rmult_le_pos; apply weight_sum_nonneg; lia.
    + assert (e0 := proj1 HA). assert (1 <= (1 + eps) ^ 11) by (apply pow_R1_Rle; lra). lra.
  - exact HD.
  - replace (0 / - d) with 0 in R3, R4 by (field; lra). rewrite Rminus_0_r in R3, R4. subst x y. exists x', y'. split; [exact R1|]. split; [exact R2|].
    assert (OE : forall w, offset_error eps (- w) 0 (- d) en ed = roll_error eps w d en ed).
    { intros w. unfold offset_error, roll_error. replace (0 / - d) with 0 by (field; lra). rewrite Rabs_Ropp, (Rabs_right d) by lra. rewrite Rabs_R0, Rplus_0_r, Rabs_Ropp. rewrite !Rmult_0_r, !Rmult_0_l, !Rplus_0_r. reflexivity. }
    rewrite <- !OE. split.
    + replace (- (IZR dx + half_if_odd nx)) with (- IZR dx - half_if_odd nx) by ring. exact R5.
    + replace (- (IZR dy + half_if_odd ny)) with (- IZR dy - half_if_odd ny) by ring. exact R6.
Qed.
Print Assumptions C120_roll.

(** in double precision *)
Theorem C120_double_roll :
  forall q psy psx A S e agpy im1 im2 er1 er2 zeromean nthreads use_np allow_huge dy dx,
  let ny := prodZ psy in let nx := prodZ psx in let eps := 2 * u64 * INR (register_roundings q psy psx) in
  pos_shape psy -> pos_shape psx -> double_arith q [psy; psx] A -> double_scalar q (Z.to_nat (ny * nx)) S -> eps <= 1 / 2 ->
  is_roll im1 im2 ny nx dy dx -> size_ok e allow_huge ny nx -> errim_ok er1 ny nx -> errim_ok er2 ny nx ->
  interior_shift ny dy -> interior_shift nx dx ->
  let f := prep zeromean im1 ny nx in let c := fun u v => ccf ny nx f f u v / IZR (ny * nx) in
  let M := corr_size zeromean im1 im2 ny nx in
  (forall s t, (s mod ny <> 0 \/ t mod nx <> 0)%Z -> c s t + 2 * (M * ((1 + eps) ^ 11 - 1)) < c 0%Z 0%Z) -> M * ((1 + eps) ^ 11 - 1) < c 0%Z 0%Z ->
  let d := 4 * (c 0%Z 0%Z - c 1%Z 0%Z) * (c 0%Z 0%Z - c 0%Z 1%Z) - ((c 1%Z (-1)%Z - c 1%Z 1%Z) / 2) ^ 2 in
  let en := 5 * M ^ 2 * ((1 + eps) ^ 30 - 1) in let ed := 17 * M ^ 2 * ((1 + eps) ^ 32 - 1) in
  ed < d ->
  exists x' y',
    cross_correlation_shifts e agpy im1 im2 er1 er2 None false false zeromean BWrap nthreads use_np allow_huge =
      Ok [XF (IZR dx + half_if_odd nx); XF (IZR dy + half_if_odd ny)] /\
    cross_correlation_shifts_rd A S (e_gb e) im1 im2 zeromean BWrap allow_huge = Ok [XF x'; XF y'] /\
    Rabs (x' - (IZR dx + half_if_odd nx)) <= roll_error eps (IZR dx + half_if_odd nx) d en ed /\
    Rabs (y' - (IZR dy + half_if_odd ny)) <= roll_error eps (IZR dy + half_if_odd ny) d en ed.
Proof.
  intros q psy psx A S e agpy im1 im2 er1 er2 zm nt np huge dy dx ny nx eps Py Px HA HS He Hr Hh He1 He2 Iy Ix.
  assert (U := u64_pos). set (m := register_roundings q psy psx) in *.
  assert (UM : forall n, (n <= m)%nat -> (1 + u64) ^ n - 1 <= eps).
  { intros n Hn. assert (Q := C112_roundoff m ltac:(unfold eps in He; lra)). assert (Q2 := up_mono n m Hn). unfold eps. lra. }
  assert (Hp : Forall pos_shape [psy; psx]) by (repeat constructor; auto).
  apply (C120_roll A S eps e agpy im1 im2 er1 er2 zm nt np huge ny nx dy dx); auto.
  - apply (accurate_weaken ((1 + u64) ^ (roundingsN q [psy; psx] + 4) - 1)); [exact (C112_fft_is_accurate q [psy; psx] A Hp HA)|].
    apply UM. cbn [roundingsN fold_right]. unfold m, register_roundings. lia.
  - apply (scalar_weaken _ _ _ _ (C113_double_is_accurate q _ S HS)). apply UM. unfold m, register_roundings. fold ny nx. lia.
Qed.
Print Assumptions C120_double_roll.

(** a bright pixel moved by (-1, -2), 4 x 6 pixels: double precision is within a hundred-thousandth of a pixel *)
Lemma dot_auto_46 s t : ccf 4 6 (prep false (dot 4 6 1 3) 4 6) (prep false (dot 4 6 1 3) 4 6) s t = if ((s mod 4 =? 0) && (t mod 6 =? 0))%Z then 1 else 0.
Proof.
  rewrite (ccf_delta 4 6 _ _ 1 3); [|lia|lia|reflexivity]. unfold prep. cbn [dot mk2 get].
  assert (E1 : ((1 + s) mod 4 =? 1)%Z = (s mod 4 =? 0)%Z) by (apply eq_true_iff_eq; rewrite !Z.eqb_eq; Z.to_euclidean_division_equations; lia).
  assert (E2 : ((3 + t) mod 6 =? 3)%Z = (t mod 6 =? 0)%Z) by (apply eq_true_iff_eq; rewrite !Z.eqb_eq; Z.to_euclidean_division_equations; lia).
  rewrite E1, E2. reflexivity.
Qed.
Example C120_nonvacuous :
  forall e agpy nthreads use_np, exists x' y',
    cross_correlation_shifts e agpy (dot 4 6 1 3) (dot 4 6 0 1) None None None false false false BWrap nthreads use_np true = Ok [XF (-2 + 0); XF (-1 + 0)] /\
    cross_correlation_shifts_rd (float_arith [[2; 2]; [2; 3]]%Z) float_sarith (e_gb e) (dot 4 6 1 3) (dot 4 6 0 1) false BWrap true = Ok [XF x'; XF y'] /\
    Rabs (x' + 2) <= / 10 ^ 5 /\ Rabs (y' + 1) <= / 10 ^ 5.
Proof.
  intros e agpy nt np.
  assert (P4 : pos_shape [2; 2]%Z) by (apply pos2; lia). assert (P6 : pos_shape [2; 3]%Z) by (apply pos2; lia).
  destruct (C112_nonvacuous [[2; 2]; [2; 3]]%Z ltac:(repeat constructor; auto)) as [HA _].
  assert (U64 := u64_pos).
  assert (US : u64 <= / 10 ^ 11) by (rewrite u64_val; apply Rinv_le_contravar; cbn [pow]; lra).
  set (m := register_roundings 1 [2; 2]%Z [2; 3]%Z).
  assert (Em : INR m <= 50) by (change m with 44%nat; rewrite INR_IZR_INZ; cbn; lra).
  assert (E0 : 0 <= INR m) by apply pos_INR.
  set (eps := 2 * u64 * INR m).
  assert (He : 0 <= eps <= / 10 ^ 9).
  { unfold eps. split; [apply Rmult_le_pos; lra|]. refine (Rle_trans _ (2 * / 10 ^ 11 * 50) _ _ _); [apply Rmult_le_compat; lra|cbn [pow]; lra]. }
  assert (PW : forall n, (n <= 32)%nat -> 1 <= (1 + eps) ^ n <= (1 + / 10 ^ 9) ^ 32).
  { intros n Hn. split; [apply pow_R1_Rle; lra|]. apply Rle_trans with ((1 + eps) ^ 32); [apply Rle_pow; [lra|lia]|]. apply pow_incr. lra. }
  assert (B32 : (1 + / 10 ^ 9) ^ 32 <= 1 + / 10 ^ 7) by (cbn [pow]; lra).
  assert (WS : forall a b, (0 <= a < 4)%Z -> (0 <= b < 6)%Z -> pixel_sum 4 6 (weight false (dot 4 6 a b) 4 6) = 1).
  { intros a b Ha Hb. change (pixel_sum 4 6) with (sum2 4 6). unfold sum2. rewrite (sumR_single 4 _ a) by (auto; intros i Hi Ni; apply sumR_const0; intros j Hj; unfold weight; cbn [dot mk2 get]; apply Z.eqb_neq in Ni; rewrite Ni; cbn [andb]; rewrite Rabs_R0; ring).
    rewrite (sumR_single 6 _ b) by (auto; intros j Hj Nj; unfold weight; cbn [dot mk2 get]; apply Z.eqb_neq in Nj; rewrite Nj, andb_false_r; rewrite Rabs_R0; ring).
    unfold weight. cbn [dot mk2 get]. rewrite !Z.eqb_refl. cbn [andb]. rewrite Rabs_R1. ring. }
  assert (EM : corr_size false (dot 4 6 1 3) (dot 4 6 0 1) 4 6 = 1 / 24) by (unfold corr_size; rewrite !WS by lia; change (IZR (4 * 6)) with 24; field).
  assert (RE : forall w, Rabs w <= 2 -> roll_error eps w (1 / 144) (5 * (1 / 24) ^ 2 * ((1 + eps) ^ 30 - 1)) (17 * (1 / 24) ^ 2 * ((1 + eps) ^ 32 - 1)) <= / 10 ^ 5).
  { intros w Hw. unfold roll_error. assert (Q2 := PW 2%nat ltac:(lia)). assert (Q30 := PW 30%nat ltac:(lia)). assert (Q32 := PW 32%nat ltac:(lia)).
    set (a := (1 + eps) ^ 30) in *. set (b := (1 + eps) ^ 32) in *. set (p := (1 + eps) ^ 2) in *. 
    assert (K1 : eps * Rabs w <= / 10 ^ 9 * 2) by (apply Rmult_le_compat; try lra; apply Rabs_pos).
    assert (K2 : p * (5 * (1 / 24) ^ 2 * (a - 1) / (1 / 144 - 17 * (1 / 24) ^ 2 * (b - 1))) <= 2 * (5 * (1 / 24) ^ 2 * / 10 ^ 7 / (1 / 200))).
    { assert (/ 10 ^ 7 <= 1 / 10000000) by (cbn [pow]; lra).
      assert (D : 1 / 200 <= 1 / 144 - 17 * (1 / 24) ^ 2 * (b - 1)) by (cbn [pow] in *; lra).
      apply Rmult_le_compat; [lra| |lra|].
      - apply Rmult_le_pos; [cbn [pow]; lra|left; apply Rinv_0_lt_compat; lra].
      - apply Rmult_le_compat; [cbn [pow]; lra|left; apply Rinv_0_lt_compat; lra|cbn [pow] in *; lra|apply Rinv_le_contravar; lra]. }
    refine (Rle_trans _ _ _ (Rplus_le_compat _ _ _ _ K2 K1) _). cbn [pow]. lra. }
  destruct (C120_double_roll 1 [2; 2]%Z [2; 3]%Z (float_arith [[2; 2]; [2; 3]]%Z) float_sarith e agpy (dot 4 6 1 3) (dot 4 6 0 1) None None false nt np true (-1) (-2)) as [x' [y' [R1 [R2 [R3 R4]]]]];
    change (prodZ [2; 2])%Z with 4%Z in *; change (prodZ [2; 3])%Z with 6%Z in *; auto; try exact I.
  - apply C113_nonvacuous.
  - fold m eps. cbn [pow] in He. lra.
  - split; [reflexivity|]. split; [reflexivity|]. intros y x Hy Hx. cbn [dot mk2 get]. f_equal.
    assert (E1 : ((y - -1) mod 4 =? 1)%Z = (y =? 0)%Z) by (apply eq_true_iff_eq; rewrite !Z.eqb_eq; Z.to_euclidean_division_equations; lia).
    assert (E2 : ((x - -2) mod 6 =? 3)%Z = (x =? 1)%Z) by (apply eq_true_iff_eq; rewrite !Z.eqb_eq; Z.to_euclidean_division_equations; lia).
    rewrite E1, E2. reflexivity.
  - left. reflexivity.
  - split; reflexivity.
  - split; reflexivity.
  - fold m eps. rewrite EM. intros s t Hst. rewrite !dot_auto_46. change (IZR (4 * 6)) with 24. assert (Q := PW 11%nat ltac:(lia)).
    replace ((s mod 4 =? 0) && (t mod 6 =? 0))%Z with false; [|symmetry; apply andb_false_iff; rewrite !Z.eqb_neq; tauto]. cbn [Z.eqb andb Z.modulo Z.div_eucl].
    assert (/ 10 ^ 7 <= 1 / 1000) by (cbn [pow]; lra). lra.
  - fold m eps. rewrite EM, !dot_auto_46. change (IZR (4 * 6)) with 24. assert (Q := PW 11%nat ltac:(lia)). cbn -[Rlt pow]. assert (/ 10 ^ 7 <= 1 / 1000) by (cbn [pow]; lra). lra.
  - fold m eps. rewrite EM, !dot_auto_46. change (IZR (4 * 6)) with 24. assert (Q := PW 32%nat ltac:(lia)). assert (/ 10 ^ 7 <= 1 / 10000) by (cbn [pow]; lra).
    set (b := (1 + eps) ^ 32) in *. change (0 mod 4 =? 0)%Z with true. change (0 mod 6 =? 0)%Z with true. change (1 mod 4 =? 0)%Z with false. change (1 mod 6 =? 0)%Z with false.
    change (-1 mod 6 =? 0)%Z with false. cbn [andb pow]. lra.
  - fold m eps in R3, R4. rewrite EM, !dot_auto_46 in R3, R4. change (IZR (4 * 6)) with 24 in R3, R4.
    change (0 mod 4 =? 0)%Z with true in R3, R4. change (0 mod 6 =? 0)%Z with true in R3, R4. change (1 mod 4 =? 0)%Z with false in R3, R4. change (1 mod 6 =? 0)%Z with false in R3, R4.
    change (-1 mod 6 =? 0)%Z with false in R3, R4. cbn [andb] in R3, R4.
    replace (4 * (1 / 24 - 0 / 24) * (1 / 24 - 0 / 24) - ((0 / 24 - 0 / 24) / 2) ^ 2) with (1 / 144) in R3, R4 by field.
    change (half_if_odd 4) with 0 in *. change (half_if_odd 6) with 0 in *. exists x', y'. split; [exact R1|]. split; [exact R2|]. rewrite !Rplus_0_r in R3, R4.
    assert (A2 : Rabs (-2) <= 2) by (rewrite Rabs_left; lra). assert (A1 : Rabs (-1) <= 2) by (rewrite Rabs_left; lra).
    replace (x' - -2) with (x' + 2) in R3 by ring. replace (y' - -1) with (y' + 1) in R4 by ring.
    split; [exact (Rle_trans _ _ _ R3 (RE _ A2))|exact (Rle_trans _ _ _ R4 (RE _ A1))].
Qed.
