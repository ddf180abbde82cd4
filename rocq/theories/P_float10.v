(** C126, second part: the README recipe in double precision *)
From Coq Require Import ZArith Lia List Reals Lra Bool Permutation.
From Flocq Require Import Core.
From Coquelicot Require Import Complex.
From Verif Require Import Base NDim DFT Kernel Num Py Sum2 M_fast_ffts M_shift M_scale M_zoom M_upsample M_convolve M_correlate Arg M_chi2 M_xcorr M_register M_rounding M_rounding2 M_rounding3 M_rounding4 M_rounding6 M_rounding9 M_float
  Spec L_shift L_scale L_upsample L_convolve Spec2 Spec3 Spec4 L_correlate L_chi2 L_register L_register2 L_register3
  L_chi2shift L_fshift L_xcorr P_xcorr P_xcorr2 P_xcorr3 P_chi2map P_chi2errors P_chi2shift P_chi2shift2 P_register P_noise P_rounding P_rounding2 L_iterzoom2 L_accuracy P_accuracy L_rounding3 L_float P_float P_rounding3 P_float2 P_rounding4 L_rounding6 P_rounding6 P_float6 P_rounding9 P_float9 P_rounding10.
Import ListNotations.
Open Scope R_scope.

Theorem C126_double :
  forall q psy psx A S B T e im1 im2 err s us nthreads use_np nfitted (ret_err ret_arr : bool) mas mns allow_huge u s1 s2 t map0 t1 t2 t3 ym xm i j,
  let ny := prodZ psy in let nx := prodZ psx in let mu := u64 in
  let eps := 2 * u64 * (INR (chi2_roundings q psy psx) + 5 * T + 1) in
  pos_shape psy -> pos_shape psx -> double_arith q [psy; psx] A -> double_scalar q (Z.to_nat (ny * nx)) S -> double_zarith q [psy; psx] B -> eps <= 1 / 2 ->
  (forall x, sa_rd S x = rnd64 x) ->
  shape im1 = [ny; nx] -> shape im2 = [ny; nx] -> size_ok e allow_huge ny nx ->
  (err = ErrNone /\ s = 1 \/ err = ErrScalar s /\ s <> 0) ->
  grid_given us ny nx mas -> final_grid e us ny nx map0 ym xm mas mns nfitted u s1 s2 -> factor_clear mu us ny ->
  phase_room_fp T mu ny s1 u -> phase_room_fp T mu nx s2 u -> one_sigma e t ->
  chi2n_map e im1 im2 err BWrap nthreads false use_np true false allow_huge = Ok (Chi2All map0 t1 t2 t3) ->
  (0 <= ym < ny)%Z -> (0 <= xm < nx)%Z -> (0 <= i < s1)%Z -> (0 <= j < s2)%Z ->
  let d := chi2_error eps false err im1 im2 ny nx in let D := node_error_fp eps mu false err im1 im2 ny nx map0 u s1 s2 in
  let chi2_node := fun a b => chi2_at ny nx map0 (grid_shift ny ym s1 u a) (grid_shift nx xm s2 u b) in
  (forall k l, (0 <= k < ny)%Z -> (0 <= l < nx)%Z -> (k, l) <> (ym, xm) -> g2 map0 ym xm + 2 * d < g2 map0 k l) ->
  (forall a b, (0 <= a < s1)%Z -> (0 <= b < s2)%Z -> (a, b) <> (i, j) -> chi2_node i j + 2 * D < chi2_node a b) ->
  (us = UAuto -> forall k l, (0 <= k < ny)%Z -> (0 <= l < nx)%Z ->
     match auto_level e mns nfitted with Fin lv => clear_of eps d lv (g2 map0 k l - g2 map0 ym xm) | NaN => True end) ->
  exists xoff yoff rest corrected,
    chi2_shift_fp A S B e im1 im2 err us BWrap false nfitted ret_err ret_arr mas mns allow_huge = Ok (RNum xoff :: RNum yoff :: rest) /\
    shiftnd_fp A B S (of_num im2) [- yoff; - xoff] 0 false true = Ok (RealArr corrected) /\ shape corrected = [ny; nx] /\
    let r := shift_error (4 * eps) mu (of_num im2) [- yoff; - xoff] 0 [position_error mu ny s1 u; position_error mu nx s2 u] false true in
    forall ty tx, in_window ny ym s1 u ty -> in_window nx xm s2 u tx ->
      norm2 ny nx (fun i j => get corrected [i; j] - px im1 i j) <=
        mismatch ny nx (px im1) (px im2) ty tx + PI / u * norm2 ny nx (px im1) + sqrt (IZR (ny * nx)) * r.
Proof.
  intros q psy psx A S B T e im1 im2 err s us nt np nf re rc mas mns huge u s1 s2 t map0 t1 t2 t3 ym xm i j ny nx mu eps Py Px HA HS HB Hle HRD H1 H2 Hh Hs Hg FG Hf HTy HTx Ht Em Hym Hxm Hi Hj d D node G1 G2 GA.
  assert (Hp : Forall pos_shape [psy; psx]) by (repeat constructor; auto). assert (U := u64_pos). set (m := chi2_roundings q psy psx) in *.
  assert (Hy : (0 < ny)%Z) by (apply prodZ_pos; auto). assert (Hx : (0 < nx)%Z) by (apply prodZ_pos; auto).
  assert (Hw : 0 < u /\ (0 < s1)%Z).
  { destruct us as [|k|r].
    - destruct FG as [-> [_ [size [_ [-> _]]]]]. cbn [grid_given] in Hg. split; [refine (Rlt_le_trans _ _ _ Rlt_0_1 (Rmax_l _ _))|lia].
    - destruct (explicit_window_ok e (UInt k) ny nx u s1 s2 (g2 map0) mas mns nf Hy Hx FG) as [_ [Hu [Hs1 Hs2]]]. auto.
    - destruct (explicit_window_ok e (UFloat r) ny nx u s1 s2 (g2 map0) mas mns nf Hy Hx FG) as [_ [Hu [Hs1 Hs2]]]. auto. }
  destruct Hw as [Hu Hs1].
  assert (T0 : 0 <= T).
  { refine (Rle_trans _ _ _ _ HTy). apply Rmult_le_pos; [left; apply PI_RGT_0|]. assert (0 < IZR ny) by (apply IZR_lt; auto).
    assert (0 < IZR s1 / (2 * u)) by (apply Rmult_lt_0_compat; [apply IZR_lt; auto|apply Rinv_0_lt_compat; lra]). assert (0 <= position_error mu ny s1 u).
    { unfold position_error. assert (0 < IZR s1 / u) by (apply Rmult_lt_0_compat; [apply IZR_lt; auto|apply Rinv_0_lt_compat; lra]). replace (2 * IZR s1 / u) with (2 * (IZR s1 / u)) by (field; lra). assert (1 <= (1 + mu) ^ 12) by (apply pow_R1_Rle; unfold mu; lra). apply Rmult_le_pos; lra. } lra. }
  assert (E0 : 2 * u64 * INR m <= eps) by (unfold eps; apply Rmult_le_compat_l; lra).
  assert (UM : forall n, (n <= m)%nat -> (1 + u64) ^ n - 1 <= eps).
  { intros n Hn. assert (Q := C112_roundoff m ltac:(lra)). assert (Q2 := up_mono n m Hn). lra. }
  assert (F5 : (1 + u64) ^ 5 - 1 <= 10 * u64).
  { assert (Q := C112_roundoff 5). change (INR 5) with (1 + 1 + 1 + 1 + 1) in Q. assert (Q3 : (1 + 1 + 1 + 1 + 1) * u64 <= 1 / 2); [|specialize (Q Q3); lra].
    rewrite u64_val. apply (Rmult_le_reg_r (2 ^ 53)); [apply pow_lt; lra|]. rewrite Rmult_assoc, Rinv_l by (apply pow_nonzero; lra). cbn [pow]. lra. }
  assert (M1 : (roundings1 q psy + (roundings1 q psx + 0) + 4 <= m)%nat) by (unfold m, chi2_roundings, most_roundings; lia).
  assert (EA : accurate eps [ny; nx] A).
  { apply (accurate_weaken ((1 + u64) ^ (roundings1 q psy + (roundings1 q psx + 0) + 4) - 1)).
    - exact (C112_fft_is_accurate q [psy; psx] A Hp HA).
    - apply (UM _ M1). }
  assert (EB : accurate_zoom eps T [ny; nx] B).
  { apply (C112_zoom_is_accurate q [psy; psx] B T eps Hp HB).
    - apply (UM _ M1).
    - assert (K := Rmult_le_compat_l T _ _ T0 F5). unfold eps. assert (0 <= INR m) by apply pos_INR. assert (0 <= u64 * INR m) by (apply Rmult_le_pos; lra). lra.
    - intros n Hn. apply UM. unfold m, chi2_roundings, most_roundings. fold ny nx. cbn in Hn. destruct Hn as [<- | [<- | []]]; fold ny nx; lia. }
  assert (HR : rounds u64 S) by (split; [lra|]; intros x; rewrite HRD; apply rnd64_err).
  assert (I0 := pos_INR m). assert (UT := Rmult_le_pos u64 T ltac:(lra) T0). assert (UI := Rmult_le_pos u64 _ ltac:(lra) I0). assert (EP : 0 <= eps) by (unfold eps; lra).
  apply (C126_recipe A S B eps u64 T e im1 im2 err s us nt np nf re rc mas mns huge ny nx u s1 s2 t map0 t1 t2 t3 ym xm i j A B (4 * eps) (4 * T)); auto.
  - apply (scalar_weaken _ _ _ _ (C113_double_is_accurate q _ S HS)). apply UM. unfold m, chi2_roundings. fold ny nx. lia.
  - assert (Q := u64_small 1 ltac:(lia)). cbn [INR] in Q. lra.
  - rewrite HRD. apply rnd64_1.
  - apply (accurate_weaken eps); [exact EA|lra].
  - intros z Hz. refine (Rle_trans _ _ _ (double_exp q [psy; psx] B (4 * T) ltac:(lra) HB z Hz) _). unfold eps. lra.
  - destruct (small_power 2 ltac:(lia)) as [_ P2]. change (2 + 7)%nat with 9%nat in P2. assert (HTy' : PI * shift_range u64 ny s1 u <= T) by exact HTy. assert (HTx' : PI * shift_range u64 nx s2 u <= T) by exact HTx.
    assert (P0 : 0 < (1 + u64) ^ 9) by (apply pow_lt; lra).
    apply Rle_trans with (2 * T * (1 + u64) ^ 9).
    + apply Rmult_le_compat_r; [lra|]. rewrite Rmult_plus_distr_l. lra.
    + replace (4 * T) with (2 * T * 2) by ring. apply Rmult_le_compat_l; lra.
Qed.
Print Assumptions C126_double.

(** the recipe after the default call on the 2x2 bright pixel of C115, max_auto_size=2 *)
Example C126_nonvacuous :
  forall e nfitted max_nsig, e_scipy e = false ->
  let im := mk2 2 2 (fun y x => if (y =? 0)%Z && (x =? 0)%Z then Fin 1 else Fin 0) in
  exists xoff yoff rest corrected,
    chi2_shift_fp (float_arith [[2]; [2]]%Z) float_sarith (float_zarith [[2]; [2]]%Z) e im im (ErrScalar 2) UAuto BWrap false nfitted true false 2 max_nsig true = Ok (RNum xoff :: RNum yoff :: rest) /\
    shiftnd_fp (float_arith [[2]; [2]]%Z) (float_zarith [[2]; [2]]%Z) float_sarith (of_num im) [- yoff; - xoff] 0 false true = Ok (RealArr corrected) /\
    shape corrected = [2; 2]%Z /\
    norm2 2 2 (fun i j => get corrected [i; j] - px im i j) <= PI * norm2 2 2 (px im) +
      2 * shift_error (4 * (2 * u64 * (INR (chi2_roundings 1 [2] [2])%Z + 5 * (PI * 4) + 1))) u64 (of_num im) [- yoff; - xoff] 0
        [position_error u64 2 2 1; position_error u64 2 2 1] false true.
Proof.
  intros e nf mns Hsci im. pose (nt := 1%Z). pose (np := false).
  assert (Ht : one_sigma e (159358435 / 100000000)) by (split; [lra|rewrite Hsci; reflexivity]).
  assert (P22 : pos_shape [2; 2]%Z) by (apply pos2; lia).
  assert (P2 : pos_shape [2]%Z) by (apply pos_shape_cons; split; [lia|constructor]).
  destruct (C112_nonvacuous [[2]; [2]]%Z ltac:(repeat constructor; auto)) as [HA HB].
  assert (U64 := u64_pos).
  assert (US : u64 <= / 10 ^ 8).
  { rewrite u64_val. apply Rinv_le_contravar; [cbn [pow]; lra|]. cbn [pow]. lra. }
  set (m := chi2_roundings 1 [2]%Z [2]%Z).
  assert (Em : INR m = 22) by (change m with 22%nat; rewrite INR_IZR_INZ; reflexivity).
  set (eps := 2 * u64 * (INR m + 5 * (PI * 4) + 1)).
  assert (PU := PI_4). assert (PL := PI_RGT_0).
  assert (He : 0 <= eps <= 1 / 100000).
  { unfold eps. rewrite Em. split; [apply Rmult_le_pos; lra|].
    refine (Rle_trans _ (2 * / 10 ^ 8 * 104) _ _ _); [apply Rmult_le_compat; lra|cbn [pow]; lra]. }
  assert (E16 : (1 + eps) ^ 16 <= (1 + 1 / 100000) ^ 16) by (apply pow_incr; lra).
  assert (E5 : (1 + eps) ^ 5 <= (1 + 1 / 100000) ^ 5) by (apply pow_incr; lra).
  assert (F16 : 1 <= (1 + eps) ^ 16) by (apply pow_R1_Rle; lra). assert (F5 : 1 <= (1 + eps) ^ 5) by (apply pow_R1_Rle; lra).
  destruct (chi2n_map_ok e im im (ErrScalar 2) nt false np true false true 2 2 eq_refl eq_refl ltac:(lia) ltac:(lia) ltac:(cbn; lra) (or_introl eq_refl) ltac:(discriminate))
    as [c [t1 [t2 [t3 [E [Sc [_ [_ V]]]]]]]].
  assert (T : forall f, pixel_sum 2 2 f = f 0%Z 0%Z + f 0%Z 1%Z + (f 1%Z 0%Z + f 1%Z 1%Z)).
  { intros f. unfold pixel_sum. change 2%Z with (0 + 1 + 1)%Z. rewrite !sumR_S, !sumR_0 by lia. cbn. ring. }
  assert (U : forall y x, used_image false (ErrScalar 2) im 2 2 y x = if (y =? 0)%Z && (x =? 0)%Z then 1 else 0).
  { intros y x. unfold used_image, err_zero, prep, px. cbn [im get mk2]. destruct (_ && _); reflexivity. }
  assert (UW : forall y x, used_weight false (ErrScalar 2) im 2 2 y x = if (y =? 0)%Z && (x =? 0)%Z then 1 else 0).
  { intros y x. unfold used_weight, err_zero, weight. cbn [im get mk2]. destruct (_ && _); [rewrite Rabs_R1|rewrite Rabs_R0]; ring. }
  assert (VV : forall k l, (0 <= k < 2)%Z -> (0 <= l < 2)%Z -> g2 c k l = if (k =? 0)%Z && (l =? 0)%Z then 0 else 1 / 2).
  { intros k l Hk Hl. destruct (V k l Hk Hl) as [_ [_ ->]]. cbv zeta. unfold chi2_of. rewrite !T.
    assert (k = 0 \/ k = 1)%Z as [-> | ->] by lia; assert (l = 0 \/ l = 1)%Z as [-> | ->] by lia;
    change ((2 - 1) / 2 - 0)%Z with 0%Z; change ((2 - 1) / 2 - 1)%Z with (-1)%Z; rewrite !U; cbn; field. }
  assert (D : chi2_error eps false (ErrScalar 2) im im 2 2 = (1 + eps) ^ 16 - 1).
  { unfold chi2_error, chi2_size. cbv zeta. rewrite !T, !UW. cbn [Z.eqb andb sigma_of]. field. }
  assert (DD : node_error eps false (ErrScalar 2) im im 2 2 c = 4 * ((1 + eps) ^ 16 - 1) + (3 / 2 + 4 * ((1 + eps) ^ 16 - 1)) * ((1 + eps) ^ 5 - 1)).
  { unfold node_error. cbv zeta. rewrite D, T, !VV by lia. cbn [Z.eqb andb]. rewrite Rabs_R0, Rabs_right by lra. change (IZR (2 * 2)) with 4. field. }
  assert (DB : node_error eps false (ErrScalar 2) im im 2 2 c <= 1 / 10).
  { rewrite DD. set (a := (1 + eps) ^ 16) in *. set (b := (1 + eps) ^ 5) in *.
    assert (Q : (3 / 2 + 4 * (a - 1)) * (b - 1) <= (3 / 2 + 4 * (1 / 100)) * (1 / 100)).
    { cbn [pow] in E16, E5. apply Rmult_le_compat; lra. }
    cbn [pow] in E16, E5. lra. }
  assert (G : forall i, grid_shift 2 0 2 1 i = - IZR i).
  { intros i. unfold grid_shift. change ((2 - 1) / 2)%Z with 0%Z. cbn [Z.even]. field. }
  assert (N : forall a b, (0 <= a < 2)%Z -> (0 <= b < 2)%Z -> chi2_at 2 2 c (grid_shift 2 0 2 1 a) (grid_shift 2 0 2 1 b) = if (a =? 0)%Z && (b =? 0)%Z then 0 else 1 / 2).
  { intros a b Ha Hb. rewrite !G, <- VV by lia. unfold chi2_at. change ((2 - 1) / 2)%Z with 0%Z. rewrite (tiR_ext [2; 2]%Z (get c) (img2 (g2 c))).
    - replace (0 - - IZR a) with (IZR a) by ring. replace (0 - - IZR b) with (IZR b) by ring. rewrite tiR_int2 by lia. rewrite !Z.mod_small by lia. reflexivity.
    - intros y Hin. apply inb2 in Hin. destruct Hin as [y1 [x1 [-> _]]]. reflexivity. }
  assert (ND : forall a b, (0 <= a < 2)%Z -> (0 <= b < 2)%Z -> (a, b) <> (0, 0)%Z -> (a =? 0)%Z && (b =? 0)%Z = false).
  { intros a b Ha Hb Q. destruct (Z.eqb_spec a 0) as [->|]; [|reflexivity]. destruct (Z.eqb_spec b 0) as [->|]; [exfalso; apply Q; reflexivity|reflexivity]. }
  assert (FG : final_grid e UAuto 2 2 c 0 0 2 mns nf 1 2 2).
  { cbn [final_grid]. split; [reflexivity|]. split; [reflexivity|]. exists 1%Z. split; [lia|]. split; [rewrite Rmax_left by lra; reflexivity|]. rewrite Hsci.
    right. split; [lia|]. split.
    - intros y x y' x' [? [? _]] [? [? _]]. lia.
    - exists 1%Z, 0%Z, 0%Z, 0%Z. unfold near_min. rewrite !VV by lia. cbn [Z.eqb andb]. repeat split; try lia; try lra. }
  assert (A16 : 1 <= (1 + eps) ^ 16 <= 1 + 1 / 100) by (cbn [pow] in E16 |- *; cbn [pow] in F16; lra).
  destruct (C122_double_errors 2 2 1 ltac:(lia) ltac:(lia) Rlt_0_1) as [QP QB].
  assert (US' : u64 <= / 10 ^ 8) by exact US. rewrite <- u64_val in QP, QB.
  assert (QP' : position_error u64 2 2 1 <= 1 / 100000) by lra.
  assert (QP0 : 0 <= position_error u64 2 2 1) by (unfold position_error; assert (1 <= (1 + u64) ^ 12) by (apply pow_R1_Rle; lra); apply Rmult_le_pos; lra).
  assert (SA : pixel_sum 2 2 (fun k l => Rabs (g2 c k l)) = 3 / 2).
  { rewrite T, !VV by lia. cbn [Z.eqb andb]. rewrite Rabs_R0, Rabs_right by lra. lra. }
  set (DF := node_error_fp eps u64 false (ErrScalar 2) im im 2 2 c 1 2 2).
  assert (DFB : 0 <= DF <= 12 / 100).
  { unfold DF, node_error_fp. rewrite SA. assert (0 <= node_error eps false (ErrScalar 2) im im 2 2 c).
    { rewrite DD. assert (0 <= (3 / 2 + 4 * ((1 + eps) ^ 16 - 1)) * ((1 + eps) ^ 5 - 1)) by (apply Rmult_le_pos; lra). lra. }
    assert (0 <= PI * (3 / 2) * (position_error u64 2 2 1 + position_error u64 2 2 1)) by (apply Rmult_le_pos; lra).
    assert (PI * (3 / 2) * (position_error u64 2 2 1 + position_error u64 2 2 1) <= 4 * (3 / 2) * (1 / 100000 + 1 / 100000)) by (apply Rmult_le_compat; lra). lra. }
  destruct (C126_double 1 [2]%Z [2]%Z (float_arith [[2]; [2]]%Z) float_sarith (float_zarith [[2]; [2]]%Z) (PI * 4) e im im (ErrScalar 2) 2 UAuto nt np nf true false 2 mns true 1 2 2 (159358435 / 100000000) c t1 t2 t3 0 0 0 0)
    as [xo [yo [rest [co [R1 [R2 [R3 R4]]]]]]]; change (prodZ [2])%Z with 2%Z; try lia; try reflexivity; auto.
  - apply C113_nonvacuous.
  - fold m eps. lra.
  - left. reflexivity.
  - cbn. lia.
  - unfold phase_room_fp. apply Rmult_le_compat_l; [left; apply PI_RGT_0|lra].
  - unfold phase_room_fp. apply Rmult_le_compat_l; [left; apply PI_RGT_0|lra].
  - fold m eps. intros k l Hk Hl Q. rewrite D, !VV, (ND k l) by (auto; lia). cbn [Z.eqb andb]. lra.
  - cbv zeta. fold m eps. fold DF. intros a b Ha Hb Q. rewrite !N, (ND a b) by (auto; lia). cbn [Z.eqb andb]. lra.
  - fold m eps. intros _ k l Hk Hl. unfold auto_level. rewrite Hsci, D, !VV by lia. left.
    refine (Rle_lt_trans _ ((1 / 2 + 2 * (1 / 100)) * (1 + 1 / 100000)) _ _ _); [cbn [Z.eqb andb]; destruct ((k =? 0)%Z && (l =? 0)%Z); apply Rmult_le_compat; lra|lra].
  - change (prodZ [2])%Z with 2%Z in R1, R2, R3, R4. fold m eps in R4. exists xo, yo, rest, co. split; [exact R1|]. split; [exact R2|]. split; [exact R3|].
    fold m eps. refine (Rle_trans _ _ _ (R4 0 0 _ _) _).
    + exists 0%Z. change (2 - 1)%Z with 1%Z. rewrite !G. lra.
    + exists 0%Z. change (2 - 1)%Z with 1%Z. rewrite !G. lra.
    + assert (M0 : mismatch 2 2 (px im) (px im) 0 0 = 0).
      { unfold mismatch. match goal with |- sqrt ?X = 0 => replace X with 0; [apply sqrt_0|] end. symmetry. apply sum2_const0. intros i j Hi Hj. cbv beta.
        rewrite (cshift_int 2 2 (px im) 0 0 i j) by lia. rewrite !Z.sub_0_r, !Z.mod_small by lia. unfold Cminus. rewrite Cplus_opp_r, Cmod_0. ring. }
      rewrite M0. replace (sqrt (IZR (2 * 2))) with 2; [right; field|].
      change (2 * 2)%Z with (2 ^ 2)%Z. replace (IZR (2 ^ 2)) with (2 * 2) by (cbn; lra). rewrite sqrt_square; lra.
Qed.
