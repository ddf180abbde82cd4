(** C113, second part: register_images and chi2_shift with all pixel arithmetic in double precision *)
From Coq Require Import ZArith Lia List Reals Lra Bool Permutation.
From Coquelicot Require Import Complex.
From Verif Require Import Base NDim DFT Kernel Num Py Sum2 M_fast_ffts M_shift M_scale M_zoom M_upsample M_convolve M_correlate Arg M_chi2 M_xcorr M_register M_rounding M_rounding2 M_rounding3 M_float
  Spec L_shift L_scale L_upsample L_convolve Spec2 Spec3 Spec4 L_correlate L_chi2 L_register L_register2 L_register3
  L_chi2shift L_fshift L_xcorr P_xcorr P_xcorr2 P_xcorr3 P_chi2map P_chi2shift P_register P_noise P_rounding P_rounding2 L_iterzoom2 L_rounding3 L_float P_float P_rounding3.
Import ListNotations.
Open Scope R_scope.

(** operations on pixels in double precision: an operation is off by at most q roundings (q = 1 for the IEEE operations; the
    modulus of a complex number may need more), sums are evaluated in any order *)
Definition double_scalar (q n : nat) (S : sarith) : Prop :=
  (forall x, Rabs (sa_rd S x - x) <= ((1 + u64) ^ q - 1) * Rabs x) /\ sa_sum S [] = 0 /\
  forall l, l <> [] -> (length l <= n)%nat -> fl_dot (map (fun x => (1, x)) l) (sa_sum S l).

Theorem C113_double_is_accurate :
  forall q n S, double_scalar q n S -> accurate_scalar ((1 + u64) ^ (Nat.max q n) - 1) n S.
Proof.
  intros q n S [H1 [H2 H3]]. assert (G := up_ge1 (Nat.max q n)). split; [lra|]. split.
  - intros x. refine (Rle_trans _ _ _ (H1 x) _). apply Rmult_le_compat_r; [apply Rabs_pos|]. assert (Q := up_mono q (Nat.max q n) ltac:(lia)). lra.
  - intros l Hl. destruct l as [|x l].
    + rewrite H2. cbn. rewrite Rminus_0_r, Rabs_R0, Rmult_0_r. lra.
    + assert (Q := fl_dot_err _ _ (H3 (x :: l) ltac:(discriminate) Hl)). rewrite map_length in Q.
      assert (LS : forall l', lsum (map (fun x => (1, x)) l') = fold_right Rplus 0 l') by (intros l'; unfold lsum; induction l' as [|a l' IH]; [reflexivity|]; cbn [map fold_right fst snd]; rewrite IH; ring).
      assert (LA : forall l', labs (map (fun x => (1, x)) l') = fold_right Rplus 0 (map Rabs l')) by (intros l'; unfold labs; induction l' as [|a l' IH]; [reflexivity|]; cbn [map fold_right fst snd]; rewrite IH, Rmult_1_l; reflexivity).
      assert (A0 := labs_nonneg (map (fun x => (1, x)) (x :: l))).
      rewrite LS in Q. rewrite <- LA. refine (Rle_trans _ _ _ Q _). apply Rmult_le_compat_r; auto. assert (K := up_mono (length (x :: l)) (Nat.max q n) ltac:(lia)). lra.
Qed.
Print Assumptions C113_double_is_accurate.

Lemma scalar_weaken eps eps' n S : accurate_scalar eps n S -> eps <= eps' -> accurate_scalar eps' n S.
Proof.
  intros [H0 [H1 H2]] H. split; [lra|]. split.
  - intros x. refine (Rle_trans _ _ _ (H1 x) _). apply Rmult_le_compat_r; auto using Rabs_pos.
  - intros l Hl. refine (Rle_trans _ _ _ (H2 l Hl) _). apply Rmult_le_compat_r; auto. clear. induction l as [|x l IH]; cbn; [lra|]. assert (Q := Rabs_pos x). lra.
Qed.

(** roundings in the transforms, or in the sum over all pixels *)
Definition register_roundings (q : nat) (psy psx : list Z) : nat :=
  Nat.max (roundings1 q psy + roundings1 q psx + 4) (Nat.max q (Z.to_nat (prodZ psy * prodZ psx))).
Theorem C113_double_register_images :
  forall q psy psx A A' S has_fftw im1 im2 ret_err zeromean maxoff nthreads use_np dy dx,
  let ny := prodZ psy in let nx := prodZ psx in let eps := 2 * u64 * INR (register_roundings q psy psx) in
  pos_shape psy -> pos_shape psx -> double_arith q [psy; psx] A -> double_arith q [psy; psx] A' -> double_scalar q (Z.to_nat (ny * nx)) S -> eps <= 1 / 2 ->
  shape im1 = [ny; nx] -> shape im2 = [ny; nx] -> mo_ok maxoff -> within maxoff (centred ny dy) -> within maxoff (centred nx dx) ->
  let f := prep zeromean im1 ny nx in let g := prep zeromean im2 ny nx in
  (forall s t, ((s - dy) mod ny <> 0 \/ (t - dx) mod nx <> 0)%Z ->
     Rabs (ccf ny nx f g s t) + 2 * peak_error eps zeromean im1 im2 ny nx < Rabs (ccf ny nx f g dy dx)) ->
  register_images_rd A A' S im1 im2 ret_err zeromean maxoff = Ok (nums [IZR (centred nx dx); IZR (centred ny dy)] ++ err_out ret_err 1) /\
  register_images has_fftw im1 im2 1 false ret_err zeromean maxoff nthreads use_np = register_images_rd A A' S im1 im2 ret_err zeromean maxoff.
Proof.
  intros q psy psx A A' S hf im1 im2 re zm mo nt np dy dx ny nx eps Py Px HA HA' HS He H1 H2 Hmo Wy Wx f g G.
  assert (U := u64_pos). set (m := register_roundings q psy psx) in *.
  assert (UM : forall n, (n <= m)%nat -> (1 + u64) ^ n - 1 <= eps).
  { intros n Hn. assert (Q := C112_roundoff m ltac:(unfold eps in He; lra)). assert (Q2 := up_mono n m Hn). unfold eps. lra. }
  assert (Hp : Forall pos_shape [psy; psx]) by (repeat constructor; auto).
  assert (E : forall X, double_arith q [psy; psx] X -> accurate eps [ny; nx] X).
  { intros X HX. apply (accurate_weaken ((1 + u64) ^ (roundingsN q [psy; psx] + 4) - 1)); [exact (C112_fft_is_accurate q [psy; psx] X Hp HX)|].
    apply UM. cbn [roundingsN fold_right]. unfold m, register_roundings. lia. }
  apply (C113_register_same_answer A A' S eps hf im1 im2 re zm mo nt np ny nx dy dx); auto; try (apply prodZ_pos; auto).
  apply (scalar_weaken _ _ _ _ (C113_double_is_accurate q _ S HS)). apply UM. unfold m, register_roundings. fold ny nx. lia.
Qed.
Print Assumptions C113_double_register_images.

Definition chi2_roundings (q : nat) (psy psx : list Z) : nat := Nat.max (most_roundings q psy psx) (Nat.max q (Z.to_nat (prodZ psy * prodZ psx))).
Theorem C113_double_chi2_shift :
  forall q psy psx A S B T e im1 im2 err us nthreads use_np zeromean nfitted ret_err ret_arr mas mns allow_huge u s1 s2 t map0 t1 t2 t3 ym xm i j,
  let ny := prodZ psy in let nx := prodZ psx in
  let eps := 2 * u64 * (INR (chi2_roundings q psy psx) + 5 * T + 1) in
  pos_shape psy -> pos_shape psx -> double_arith q [psy; psx] A -> double_scalar q (Z.to_nat (ny * nx)) S -> double_zarith q [psy; psx] B -> eps <= 1 / 2 ->
  shape im1 = [ny; nx] -> shape im2 = [ny; nx] -> err_ok err ny nx -> size_ok e allow_huge ny nx ->
  explicit_grid us ny nx u s1 s2 -> phase_room T ny s1 u -> phase_room T nx s2 u -> one_sigma e t ->
  chi2n_map e im1 im2 err BWrap nthreads zeromean use_np true false allow_huge = Ok (Chi2All map0 t1 t2 t3) ->
  (0 <= ym < ny)%Z -> (0 <= xm < nx)%Z -> (0 <= i < s1)%Z -> (0 <= j < s2)%Z ->
  let d := chi2_error eps zeromean err im1 im2 ny nx in let D := node_error eps zeromean err im1 im2 ny nx map0 in
  let chi2_node := fun a b => chi2_at ny nx map0 (grid_shift ny ym s1 u a) (grid_shift nx xm s2 u b) in
  (forall k l, (0 <= k < ny)%Z -> (0 <= l < nx)%Z -> (k, l) <> (ym, xm) -> g2 map0 ym xm + 2 * d < g2 map0 k l) ->
  (forall a b, (0 <= a < s1)%Z -> (0 <= b < s2)%Z -> (a, b) <> (i, j) -> chi2_node i j + 2 * D < chi2_node a b) ->
  exists rest rest',
    chi2_shift_rd A S B e im1 im2 err us BWrap zeromean nfitted false ret_err ret_arr mas mns allow_huge =
      Ok (RNum (grid_shift nx xm s2 u j) :: RNum (grid_shift ny ym s1 u i) :: rest) /\
    chi2_shift e im1 im2 err us BWrap nthreads use_np zeromean nfitted false ret_err ret_arr mas mns allow_huge =
      Ok (RNum (grid_shift nx xm s2 u j) :: RNum (grid_shift ny ym s1 u i) :: rest').
Proof.
  intros q psy psx A S B T e im1 im2 err us nt np zm nf re rc mas mns huge u s1 s2 t map0 t1 t2 t3 ym xm i j ny nx eps Py Px HA HS HB Hle H1 H2 He Hh Hg HTy HTx Ht Em Hym Hxm Hi Hj d D node G1 G2.
  assert (Hp : Forall pos_shape [psy; psx]) by (repeat constructor; auto). assert (U := u64_pos). set (m := chi2_roundings q psy psx) in *.
  assert (Hy : (0 < ny)%Z) by (apply prodZ_pos; auto). assert (Hx : (0 < nx)%Z) by (apply prodZ_pos; auto).
  destruct (explicit_window_ok e us ny nx u s1 s2 (g2 map0) mas mns nf Hy Hx Hg) as [_ [Hu [Hs1 Hs2]]].
  assert (T0 : 0 <= T).
  { refine (Rle_trans _ _ _ _ HTy). apply Rmult_le_pos; [left; apply PI_RGT_0|]. assert (0 < IZR ny) by (apply IZR_lt; auto).
    assert (0 < IZR s1 / (2 * u)) by (apply Rmult_lt_0_compat; [apply IZR_lt; auto|apply Rinv_0_lt_compat; lra]). lra. }
  assert (E0 : 2 * u64 * INR m <= eps) by (unfold eps; apply Rmult_le_compat_l; lra).
  assert (UM : forall n, (n <= m)%nat -> (1 + u64) ^ n - 1 <= eps).
  { intros n Hn. assert (Q := C112_roundoff m ltac:(lra)). assert (Q2 := up_mono n m Hn). lra. }
  assert (F5 : (1 + u64) ^ 5 - 1 <= 10 * u64).
  { assert (Q := C112_roundoff 5). change (INR 5) with (1 + 1 + 1 + 1 + 1) in Q. assert (Q3 : (1 + 1 + 1 + 1 + 1) * u64 <= 1 / 2); [|specialize (Q Q3); lra].
    rewrite u64_val. apply (Rmult_le_reg_r (2 ^ 53)); [apply pow_lt; lra|]. rewrite Rmult_assoc, Rinv_l by (apply pow_nonzero; lra). cbn [pow]. lra. }
  assert (M1 : (roundings1 q psy + (roundings1 q psx + 0) + 4 <= m)%nat) by (unfold m, chi2_roundings, most_roundings; lia).
  assert (EA : accurate eps [ny; nx] A).
  { apply (accurate_weaken ((1 + u64) ^ (roundings1 q psy + (roundings1 q psx + 0) + 4) - 1)).
    - exact (C112_fft_is_accurate q [psy; psx] A Hp HA).
    - apply (UM _ M1). }
  assert (EB : accurate_zoom eps T [ny; nx] B).
  { apply (C112_zoom_is_accurate q [psy; psx] B T eps Hp HB).
    - apply (UM _ M1).
    - assert (K := Rmult_le_compat_l T _ _ T0 F5). unfold eps. assert (0 <= INR m) by apply pos_INR. assert (0 <= u64 * INR m) by (apply Rmult_le_pos; lra). lra.
    - intros n Hn. apply UM. unfold m, chi2_roundings, most_roundings. fold ny nx. cbn in Hn. destruct Hn as [<- | [<- | []]]; fold ny nx; lia. }
  apply (C113_chi2_shift_same_answer A S B eps T e im1 im2 err us nt np zm nf re rc mas mns huge ny nx u s1 s2 t map0 t1 t2 t3 ym xm i j); auto.
  apply (scalar_weaken _ _ _ _ (C113_double_is_accurate q _ S HS)). apply UM. unfold m, chi2_roundings. fold ny nx. lia.
Qed.
Print Assumptions C113_double_chi2_shift.

(** such arithmetic exists: sums from the last value to the first *)
Definition float_sum (l : list R) : R := dotf (map (fun x => (1, x)) l).
Definition float_sarith : sarith := SArith rnd64 float_sum.
Example C113_nonvacuous : forall n, double_scalar 1 n float_sarith.
Proof.
  intros n. split; [|split].
  - intros x. cbn [float_sarith sa_rd]. replace ((1 + u64) ^ 1 - 1) with u64 by ring. apply rnd64_err.
  - reflexivity.
  - intros l Hl _. apply dotf_ok. intros E. apply map_eq_nil in E. contradiction.
Qed.

(** the same bright pixel as in C112, with an error of 2 in every pixel *)
Example C113_chi2_shift_nonvacuous :
  forall e nthreads use_np nfitted max_auto_size max_nsig t, one_sigma e t ->
  let im := mk2 2 2 (fun y x => if (y =? 0)%Z && (x =? 0)%Z then Fin 1 else Fin 0) in
  exists rest rest',
    chi2_shift_rd (float_arith [[2]; [2]]%Z) float_sarith (float_zarith [[2]; [2]]%Z) e im im (ErrScalar 2) (UInt 1) BWrap false nfitted false true true max_auto_size max_nsig true = Ok (RNum 0 :: RNum 0 :: rest) /\
    chi2_shift e im im (ErrScalar 2) (UInt 1) BWrap nthreads use_np false nfitted false true true max_auto_size max_nsig true = Ok (RNum 0 :: RNum 0 :: rest').
Proof.
  intros e nt np nf mas mns t Ht im.
  assert (P22 : pos_shape [2; 2]%Z) by (apply pos2; lia).
  assert (P2 : pos_shape [2]%Z) by (apply pos_shape_cons; split; [lia|constructor]).
  destruct (C112_nonvacuous [[2]; [2]]%Z ltac:(repeat constructor; auto)) as [HA HB].
  assert (U64 := u64_pos).
  assert (US : u64 <= / 10 ^ 8).
  { rewrite u64_val. apply Rinv_le_contravar; [cbn [pow]; lra|]. cbn [pow]. lra. }
  set (m := chi2_roundings 1 [2]%Z [2]%Z).
  assert (Em : INR m = 22) by (change m with 22%nat; rewrite INR_IZR_INZ; reflexivity).
  set (eps := 2 * u64 * (INR m + 5 * (PI * 3) + 1)).
  assert (PU := PI_4). assert (PL := PI_RGT_0).
  assert (He : 0 <= eps <= 1 / 100000).
  { unfold eps. rewrite Em. split; [apply Rmult_le_pos; lra|].
    refine (Rle_trans _ (2 * / 10 ^ 8 * 100) _ _ _); [apply Rmult_le_compat; lra|cbn [pow]; lra]. }
  assert (E16 : (1 + eps) ^ 16 <= (1 + 1 / 100000) ^ 16) by (apply pow_incr; lra).
  assert (E5 : (1 + eps) ^ 5 <= (1 + 1 / 100000) ^ 5) by (apply pow_incr; lra).
  assert (F16 : 1 <= (1 + eps) ^ 16) by (apply pow_R1_Rle; lra). assert (F5 : 1 <= (1 + eps) ^ 5) by (apply pow_R1_Rle; lra).
  destruct (chi2n_map_ok e im im (ErrScalar 2) nt false np true false true 2 2 eq_refl eq_refl ltac:(lia) ltac:(lia) ltac:(cbn; lra) (or_introl eq_refl) ltac:(discriminate))
    as [c [t1 [t2 [t3 [E [Sc [_ [_ V]]]]]]]].
  assert (T : forall f, pixel_sum 2 2 f = f 0%Z 0%Z + f 0%Z 1%Z + (f 1%Z 0%Z + f 1%Z 1%Z)).
  { intros f. unfold pixel_sum. change 2%Z with (0 + 1 + 1)%Z. rewrite !sumR_S, !sumR_0 by lia. cbn. ring. }
  assert (U : forall y x, used_image false (ErrScalar 2) im 2 2 y x = if (y =? 0)%Z && (x =? 0)%Z then 1 else 0).
  { intros y x. unfold used_image, err_zero, prep, px. cbn [im get mk2]. destruct (_ && _); reflexivity. }
  assert (UW : forall y x, used_weight false (ErrScalar 2) im 2 2 y x = if (y =? 0)%Z && (x =? 0)%Z then 1 else 0).
  { intros y x. unfold used_weight, err_zero, weight. cbn [im get mk2]. destruct (_ && _); [rewrite Rabs_R1|rewrite Rabs_R0]; ring. }
  assert (VV : forall k l, (0 <= k < 2)%Z -> (0 <= l < 2)%Z -> g2 c k l = if (k =? 0)%Z && (l =? 0)%Z then 0 else 1 / 2).
  { intros k l Hk Hl. destruct (V k l Hk Hl) as [_ [_ ->]]. cbv zeta. unfold chi2_of. rewrite !T.
    assert (k = 0 \/ k = 1)%Z as [-> | ->] by lia; assert (l = 0 \/ l = 1)%Z as [-> | ->] by lia;
    change ((2 - 1) / 2 - 0)%Z with 0%Z; change ((2 - 1) / 2 - 1)%Z with (-1)%Z; rewrite !U; cbn; field. }
  assert (D : chi2_error eps false (ErrScalar 2) im im 2 2 = (1 + eps) ^ 16 - 1).
  { unfold chi2_error, chi2_size. cbv zeta. rewrite !T, !UW. cbn [Z.eqb andb sigma_of]. field. }
  assert (DD : node_error eps false (ErrScalar 2) im im 2 2 c = 4 * ((1 + eps) ^ 16 - 1) + (3 / 2 + 4 * ((1 + eps) ^ 16 - 1)) * ((1 + eps) ^ 5 - 1)).
  { unfold node_error. cbv zeta. rewrite D, T, !VV by lia. cbn [Z.eqb andb]. rewrite Rabs_R0, Rabs_right by lra. change (IZR (2 * 2)) with 4. field. }
  assert (DB : node_error eps false (ErrScalar 2) im im 2 2 c <= 1 / 10).
  { rewrite DD. set (a := (1 + eps) ^ 16) in *. set (b := (1 + eps) ^ 5) in *.
    assert (Q : (3 / 2 + 4 * (a - 1)) * (b - 1) <= (3 / 2 + 4 * (1 / 100)) * (1 / 100)).
    { cbn [pow] in E16, E5. apply Rmult_le_compat; lra. }
    cbn [pow] in E16, E5. lra. }
  assert (G : forall i, grid_shift 2 0 2 1 i = - IZR i).
  { intros i. unfold grid_shift. change ((2 - 1) / 2)%Z with 0%Z. cbn [Z.even]. field. }
  assert (N : forall a b, (0 <= a < 2)%Z -> (0 <= b < 2)%Z -> chi2_at 2 2 c (grid_shift 2 0 2 1 a) (grid_shift 2 0 2 1 b) = if (a =? 0)%Z && (b =? 0)%Z then 0 else 1 / 2).
  { intros a b Ha Hb. rewrite !G, <- VV by lia. unfold chi2_at. change ((2 - 1) / 2)%Z with 0%Z. rewrite (tiR_ext [2; 2]%Z (get c) (img2 (g2 c))).
    - replace (0 - - IZR a) with (IZR a) by ring. replace (0 - - IZR b) with (IZR b) by ring. rewrite tiR_int2 by lia. rewrite !Z.mod_small by lia. reflexivity.
    - intros y Hin. apply inb2 in Hin. destruct Hin as [y1 [x1 [-> _]]]. reflexivity. }
  assert (ND : forall a b, (0 <= a < 2)%Z -> (0 <= b < 2)%Z -> (a, b) <> (0, 0)%Z -> (a =? 0)%Z && (b =? 0)%Z = false).
  { intros a b Ha Hb Q. destruct (Z.eqb_spec a 0) as [->|]; [|reflexivity]. destruct (Z.eqb_spec b 0) as [->|]; [exfalso; apply Q; reflexivity|reflexivity]. }
  destruct (C113_double_chi2_shift 1 [2]%Z [2]%Z (float_arith [[2]; [2]]%Z) float_sarith (float_zarith [[2]; [2]]%Z) (PI * 3) e im im (ErrScalar 2) (UInt 1) nt np false nf true true mas mns true 1 2 2 t c t1 t2 t3 0 0 0 0)
    as [rest [rest' [R1 R2]]]; change (prodZ [2])%Z with 2%Z; try lia; try reflexivity; auto.
  - apply C113_nonvacuous.
  - fold m eps. lra.
  - cbn. lra.
  - left. reflexivity.
  - cbn. repeat split; lia.
  - unfold phase_room. apply Rmult_le_compat_l; [left; apply PI_RGT_0|lra].
  - unfold phase_room. apply Rmult_le_compat_l; [left; apply PI_RGT_0|lra].
  - fold m eps. intros k l Hk Hl Q. rewrite D, !VV, (ND k l) by (auto; lia). cbn [Z.eqb andb]. cbn [pow] in *. lra.
  - cbv zeta. fold m eps. intros a b Ha Hb Q. rewrite !N, (ND a b) by (auto; lia). cbn [Z.eqb andb]. lra.
  - change (prodZ [2])%Z with 2%Z in R1, R2. rewrite G in R1, R2. rewrite Ropp_0 in R1, R2. exists rest, rest'. split; [exact R1|exact R2].
Qed.

Example C113_register_nonvacuous :
  register_images_rd (float_arith [[2; 2]; [5]]%Z) (float_arith [[2; 2]; [5]]%Z) float_sarith (dot 4 5 1 1) (dot 4 5 3 4) true false None = Ok (nums [-2; -2] ++ err_out true 1).
Proof.
  assert (P4 : pos_shape [2; 2]%Z) by (apply pos2; lia).
  assert (P5 : pos_shape [5]%Z) by (apply pos_shape_cons; split; [lia|constructor]).
  destruct (C112_nonvacuous [[2; 2]; [5]]%Z ltac:(repeat constructor; auto)) as [HA _].
  assert (U64 := u64_pos).
  assert (US : u64 <= / 10 ^ 6) by (rewrite u64_val; apply Rinv_le_contravar; cbn [pow]; lra).
  set (m := register_roundings 1 [2; 2]%Z [5]%Z).
  assert (Em : INR m = 43) by (change m with 43%nat; rewrite INR_IZR_INZ; reflexivity).
  assert (He : 0 <= 2 * u64 * INR m <= / 1000) by (rewrite Em; cbn [pow] in US; lra).
  destruct (C113_double_register_images 1 [2; 2]%Z [5]%Z (float_arith [[2; 2]; [5]]%Z) (float_arith [[2; 2]; [5]]%Z) float_sarith false (dot 4 5 1 1) (dot 4 5 3 4) true false None 1 true 2 (-2)) as [Q _];
    auto; try reflexivity; try exact I.
  - apply C113_nonvacuous.
  - fold m. lra.
  - change (prodZ [2; 2])%Z with 4%Z. change (prodZ [5])%Z with 5%Z. fold m. intros s t Hst.
    refine (Rle_lt_trans _ _ _ _ (proj2 C103_nonvacuous s t Hst)). apply Rplus_le_compat_l, Rmult_le_compat_l; [lra|]. unfold corr_rounding, peak_error.
    assert (PS : forall a b, 0 <= pixel_sum 4 5 (fun i j => Rabs (prep false (dot 4 5 a b) 4 5 i j))).
    { intros a b. unfold pixel_sum. apply sumR_nonneg. intros i Hi. apply sumR_nonneg. intros j Hj. apply Rabs_pos. }
    assert (WE : forall a b, pixel_sum 4 5 (weight false (dot 4 5 a b) 4 5) = pixel_sum 4 5 (fun i j => Rabs (prep false (dot 4 5 a b) 4 5 i j))).
    { intros a b. apply sum2_ext. intros i j _ _. unfold weight, prep. destruct (get (dot 4 5 a b) [i; j]); [ring|rewrite Rabs_R0; reflexivity]. }
    rewrite !WE. apply Rmult_le_compat_l; [apply Rmult_le_pos; apply PS|].
    set (x := 2 * u64 * INR m) in *. refine (Rle_trans _ ((1 + / 1000) ^ 11 - 1) _ _ _); [apply Rplus_le_compat_r, pow_incr; lra|]. cbn [pow]. lra.
Qed.
