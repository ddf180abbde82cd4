(** C122, second part: chi2_shift in double precision, positions and error bars included *)
From Coq Require Import ZArith Lia List Reals Lra Bool Permutation.
From Flocq Require Import Core.
From Coquelicot Require Import Complex.
From Verif Require Import Base NDim DFT Kernel Num Py Sum2 M_fast_ffts M_shift M_scale M_zoom M_upsample M_convolve M_correlate Arg M_chi2 M_xcorr M_register M_rounding M_rounding2 M_rounding3 M_rounding4 M_rounding6 M_float
  Spec L_shift L_scale L_upsample L_convolve Spec2 Spec3 Spec4 L_correlate L_chi2 L_register L_register2 L_register3
  L_chi2shift L_fshift L_xcorr P_xcorr P_xcorr2 P_xcorr3 P_chi2map P_chi2errors P_chi2shift P_chi2shift2 P_register P_noise P_rounding P_rounding2 L_iterzoom2 L_rounding3 L_float P_float P_rounding3 P_float2 P_rounding4 L_rounding6 P_rounding6 P_float3.
Import ListNotations.
Open Scope R_scope.

Lemma rnd64_1 : rnd64 1 = 1.
Proof. unfold rnd64. apply round_generic; [apply valid_rnd_N|]. apply generic_format_FLX. exists (Float radix2 1 0); [unfold F2R; cbn [Fnum Fexp bpow]; lra|cbn; lia]. Qed.
Lemma u64_small k : (k <= 100)%nat -> INR k * u64 <= 1 / 4.
Proof.
  intros Hk. apply le_INR in Hk. replace (INR 100) with 100 in Hk by (rewrite INR_IZR_INZ; reflexivity). assert (U := u64_pos). assert (K := pos_INR k).
  assert (US : u64 <= / 1000). { rewrite u64_val. apply Rinv_le_contravar; [lra|]. cbn [pow]. lra. }
  refine (Rle_trans _ (100 * / 1000) _ _ _); [apply Rmult_le_compat; lra|lra].
Qed.
(** the errors of offsets and error bars in units of 2^-53 pixels *)
Theorem C122_double_errors :
  forall n s u, (0 < n)%Z -> (0 < s)%Z -> 0 < u ->
  position_error u64 n s u <= (7 * IZR n + 4 + 2 * IZR s / u) * 24 * / 2 ^ 53 /\ bar_error u64 s u <= 60 * IZR s / u * / 2 ^ 53.
Proof.
  intros n s u Hn Hs Hu. apply IZR_lt in Hn. apply IZR_lt in Hs. assert (SU : 0 < IZR s / u) by (apply Rmult_lt_0_compat; [auto|apply Rinv_0_lt_compat; auto]).
  rewrite <- u64_val. assert (U := u64_pos). assert (Q1 := C112_roundoff 12). assert (Q2 := C112_roundoff 10).
  assert (E1 : INR 12 = 12) by (rewrite INR_IZR_INZ; reflexivity). assert (E2 : INR 10 = 10) by (rewrite INR_IZR_INZ; reflexivity).
  assert (S1 := u64_small 12 ltac:(lia)). assert (S2 := u64_small 10 ltac:(lia)). rewrite E1 in *. rewrite E2 in *. specialize (Q1 ltac:(lra)). specialize (Q2 ltac:(lra)).
  replace (2 * IZR s / u) with (2 * (IZR s / u)) by (field; lra). unfold position_error, bar_error. split.
  - rewrite Rmult_assoc. replace (2 * IZR s / u) with (2 * (IZR s / u)) by (field; lra). apply Rmult_le_compat_l; lra.
  - replace (60 * IZR s / u * u64) with (3 * IZR s / u * (20 * u64)) by (field; lra). apply Rmult_le_compat_l; [|lra]. replace (3 * IZR s / u) with (3 * (IZR s / u)) by (field; lra). lra.
Qed.
Print Assumptions C122_double_errors.

Theorem C122_double :
  forall q psy psx A S B T e im1 im2 err us nthreads use_np zeromean nfitted (ret_err ret_arr : bool) mas mns allow_huge u s1 s2 t map0 t1 t2 t3 ym xm i j,
  let ny := prodZ psy in let nx := prodZ psx in let mu := u64 in
  let eps := 2 * u64 * (INR (chi2_roundings q psy psx) + 5 * T + 1) in
  pos_shape psy -> pos_shape psx -> double_arith q [psy; psx] A -> double_scalar q (Z.to_nat (ny * nx)) S -> double_zarith q [psy; psx] B -> eps <= 1 / 2 ->
  (* every scalar operation is rounded to the nearest double *)
  (forall x, sa_rd S x = rnd64 x) ->
  shape im1 = [ny; nx] -> shape im2 = [ny; nx] -> err_ok err ny nx -> size_ok e allow_huge ny nx ->
  grid_given us ny nx mas -> final_grid e us ny nx map0 ym xm mas mns nfitted u s1 s2 -> factor_clear mu us ny ->
  phase_room_fp T mu ny s1 u -> phase_room_fp T mu nx s2 u -> one_sigma e t ->
  chi2n_map e im1 im2 err BWrap nthreads zeromean use_np true false allow_huge = Ok (Chi2All map0 t1 t2 t3) ->
  (0 <= ym < ny)%Z -> (0 <= xm < nx)%Z -> (0 <= i < s1)%Z -> (0 <= j < s2)%Z ->
  let d := chi2_error eps zeromean err im1 im2 ny nx in let D := node_error_fp eps mu zeromean err im1 im2 ny nx map0 u s1 s2 in
  let chi2_node := fun a b => chi2_at ny nx map0 (grid_shift ny ym s1 u a) (grid_shift nx xm s2 u b) in
  (* the minima are clear of the rounding errors *)
  (forall k l, (0 <= k < ny)%Z -> (0 <= l < nx)%Z -> (k, l) <> (ym, xm) -> g2 map0 ym xm + 2 * d < g2 map0 k l) ->
  (forall a b, (0 <= a < s1)%Z -> (0 <= b < s2)%Z -> (a, b) <> (i, j) -> chi2_node i j + 2 * D < chi2_node a b) ->
  (* no pixel is at the level of the automatic factor *)
  (us = UAuto -> forall k l, (0 <= k < ny)%Z -> (0 <= l < nx)%Z ->
     match auto_level e mns nfitted with Fin lv => clear_of eps d lv (g2 map0 k l - g2 map0 ym xm) | NaN => True end) ->
  exists dx dy ex ey dx' dy' ex' ey' xs xs' ys ys' ups ups',
    chi2_shift_fp A S B e im1 im2 err us BWrap zeromean nfitted ret_err ret_arr mas mns allow_huge =
      Ok ([RNum dx; RNum dy] ++ (if ret_err then [RNum ex; RNum ey] else []) ++ (if ret_arr then [RMaps xs ys ups] else [])) /\
    chi2_shift e im1 im2 err us BWrap nthreads use_np zeromean nfitted false ret_err ret_arr mas mns allow_huge =
      Ok ([RNum dx'; RNum dy'] ++ (if ret_err then [RNum ex'; RNum ey'] else []) ++ (if ret_arr then [RMaps xs' ys' ups'] else [])) /\
    (* offsets *)
    Rabs (dx - dx') <= position_error mu nx s2 u /\ Rabs (dy - dy') <= position_error mu ny s1 u /\
    (* coordinates and chi2 in the returned maps *)
    shape xs = [s1; s2] /\ shape xs' = [s1; s2] /\ shape ys = [s1; s2] /\ shape ys' = [s1; s2] /\ shape ups = [s1; s2] /\ shape ups' = [s1; s2] /\
    (forall a b, (0 <= a < s1)%Z -> (0 <= b < s2)%Z ->
       Rabs (g2 xs a b - g2 xs' a b) <= position_error mu nx s2 u /\ Rabs (g2 ys a b - g2 ys' a b) <= position_error mu ny s1 u /\ Rabs (g2 ups a b - g2 ups' a b) <= D) /\
    (* no node is at the 1-sigma level: the error bars *)
    ((forall a b, (0 <= a < s1)%Z -> (0 <= b < s2)%Z -> clear_of eps D t (chi2_node a b - chi2_node i j)) ->
       Rabs (ex - ex') <= bar_error mu s2 u /\ Rabs (ey - ey') <= bar_error mu s1 u).
Proof.
  intros q psy psx A S B T e im1 im2 err us nt np zm nf re rc mas mns huge u s1 s2 t map0 t1 t2 t3 ym xm i j ny nx mu eps Py Px HA HS HB Hle HRD H1 H2 He Hh Hg FG Hf HTy HTx Ht Em Hym Hxm Hi Hj d D node G1 G2 GA.
  assert (Hp : Forall pos_shape [psy; psx]) by (repeat constructor; auto). assert (U := u64_pos). set (m := chi2_roundings q psy psx) in *.
  assert (Hy : (0 < ny)%Z) by (apply prodZ_pos; auto). assert (Hx : (0 < nx)%Z) by (apply prodZ_pos; auto).
  assert (Hw : 0 < u /\ (0 < s1)%Z).
  { destruct us as [|k|r].
    - destruct FG as [-> [_ [size [_ [-> _]]]]]. cbn [grid_given] in Hg. split; [refine (Rlt_le_trans _ _ _ Rlt_0_1 (Rmax_l _ _))|lia].
    - destruct (explicit_window_ok e (UInt k) ny nx u s1 s2 (g2 map0) mas mns nf Hy Hx FG) as [_ [Hu [Hs1 Hs2]]]. auto.
    - destruct (explicit_window_ok e (UFloat r) ny nx u s1 s2 (g2 map0) mas mns nf Hy Hx FG) as [_ [Hu [Hs1 Hs2]]]. auto. }
  destruct Hw as [Hu Hs1].
  assert (T0 : 0 <= T).
  { refine (Rle_trans _ _ _ _ HTy). apply Rmult_le_pos; [left; apply PI_RGT_0|]. assert (0 < IZR ny) by (apply IZR_lt; auto).
    assert (0 < IZR s1 / (2 * u)) by (apply Rmult_lt_0_compat; [apply IZR_lt; auto|apply Rinv_0_lt_compat; lra]). assert (0 <= position_error mu ny s1 u).
    { unfold position_error. assert (0 < IZR s1 / u) by (apply Rmult_lt_0_compat; [apply IZR_lt; auto|apply Rinv_0_lt_compat; lra]). replace (2 * IZR s1 / u) with (2 * (IZR s1 / u)) by (field; lra). assert (1 <= (1 + mu) ^ 12) by (apply pow_R1_Rle; unfold mu; lra). apply Rmult_le_pos; lra. } lra. }
  assert (E0 : 2 * u64 * INR m <= eps) by (unfold eps; apply Rmult_le_compat_l; lra).
  assert (UM : forall n, (n <= m)%nat -> (1 + u64) ^ n - 1 <= eps).
  { intros n Hn. assert (Q := C112_roundoff m ltac:(lra)). assert (Q2 := up_mono n m Hn). lra. }
  assert (F5 : (1 + u64) ^ 5 - 1 <= 10 * u64).
  { assert (Q := C112_roundoff 5). change (INR 5) with (1 + 1 + 1 + 1 + 1) in Q. assert (Q3 : (1 + 1 + 1 + 1 + 1) * u64 <= 1 / 2); [|specialize (Q Q3); lra].
    rewrite u64_val. apply (Rmult_le_reg_r (2 ^ 53)); [apply pow_lt; lra|]. rewrite Rmult_assoc, Rinv_l by (apply pow_nonzero; lra). cbn [pow]. lra. }
  assert (M1 : (roundings1 q psy + (roundings1 q psx + 0) + 4 <= m)%nat) by (unfold m, chi2_roundings, most_roundings; lia).
  assert (EA : accurate eps [ny; nx] A).
  { apply (accurate_weaken ((1 + u64) ^ (roundings1 q psy + (roundings1 q psx + 0) + 4) - 1)).
    - exact (C112_fft_is_accurate q [psy; psx] A Hp HA).
    - apply (UM _ M1). }
  assert (EB : accurate_zoom eps T [ny; nx] B).
  { apply (C112_zoom_is_accurate q [psy; psx] B T eps Hp HB).
    - apply (UM _ M1).
    - assert (K := Rmult_le_compat_l T _ _ T0 F5). unfold eps. assert (0 <= INR m) by apply pos_INR. assert (0 <= u64 * INR m) by (apply Rmult_le_pos; lra). lra.
    - intros n Hn. apply UM. unfold m, chi2_roundings, most_roundings. fold ny nx. cbn in Hn. destruct Hn as [<- | [<- | []]]; fold ny nx; lia. }
  assert (HR : rounds u64 S) by (split; [lra|]; intros x; rewrite HRD; apply rnd64_err).
  apply (C122_rounded_answer A S B eps u64 T e im1 im2 err us nt np zm nf re rc mas mns huge ny nx u s1 s2 t map0 t1 t2 t3 ym xm i j); auto.
  - apply (scalar_weaken _ _ _ _ (C113_double_is_accurate q _ S HS)). apply UM. unfold m, chi2_roundings. fold ny nx. lia.
  - assert (Q := u64_small 1 ltac:(lia)). cbn [INR] in Q. lra.
  - rewrite HRD. apply rnd64_1.
Qed.
Print Assumptions C122_double.

(** the default call on the 2x2 bright pixel of C115, max_auto_size=2 *)
Example C122_nonvacuous :
  forall e nthreads use_np nfitted max_nsig, e_scipy e = false ->
  let im := mk2 2 2 (fun y x => if (y =? 0)%Z && (x =? 0)%Z then Fin 1 else Fin 0) in
  exists dx dy ex ey ex' ey',
    chi2_shift_fp (float_arith [[2]; [2]]%Z) float_sarith (float_zarith [[2]; [2]]%Z) e im im (ErrScalar 2) UAuto BWrap false nfitted true false 2 max_nsig true = Ok [RNum dx; RNum dy; RNum ex; RNum ey] /\
    chi2_shift e im im (ErrScalar 2) UAuto BWrap nthreads use_np false nfitted false true false 2 max_nsig true = Ok [RNum 0; RNum 0; RNum ex'; RNum ey'] /\
    Rabs dx <= 1000 * / 2 ^ 53 /\ Rabs dy <= 1000 * / 2 ^ 53 /\ Rabs (ex - ex') <= 1000 * / 2 ^ 53 /\ Rabs (ey - ey') <= 1000 * / 2 ^ 53.
Proof.
  intros e nt np nf mns Hsci im.
  assert (Ht : one_sigma e (159358435 / 100000000)) by (split; [lra|rewrite Hsci; reflexivity]).
  assert (P22 : pos_shape [2; 2]%Z) by (apply pos2; lia).
  assert (P2 : pos_shape [2]%Z) by (apply pos_shape_cons; split; [lia|constructor]).
  destruct (C112_nonvacuous [[2]; [2]]%Z ltac:(repeat constructor; auto)) as [HA HB].
  assert (U64 := u64_pos).
  assert (US : u64 <= / 10 ^ 8).
  { rewrite u64_val. apply Rinv_le_contravar; [cbn [pow]; lra|]. cbn [pow]. lra. }
  set (m := chi2_roundings 1 [2]%Z [2]%Z).
  assert (Em : INR m = 22) by (change m with 22%nat; rewrite INR_IZR_INZ; reflexivity).
  set (eps := 2 * u64 * (INR m + 5 * (PI * 4) + 1)).
  assert (PU := PI_4). assert (PL := PI_RGT_0).
  assert (He : 0 <= eps <= 1 / 100000).
  { unfold eps. rewrite Em. split; [apply Rmult_le_pos; lra|].
    refine (Rle_trans _ (2 * / 10 ^ 8 * 104) _ _ _); [apply Rmult_le_compat; lra|cbn [pow]; lra]. }
  assert (E16 : (1 + eps) ^ 16 <= (1 + 1 / 100000) ^ 16) by (apply pow_incr; lra).
  assert (E5 : (1 + eps) ^ 5 <= (1 + 1 / 100000) ^ 5) by (apply pow_incr; lra).
  assert (F16 : 1 <= (1 + eps) ^ 16) by (apply pow_R1_Rle; lra). assert (F5 : 1 <= (1 + eps) ^ 5) by (apply pow_R1_Rle; lra).
  destruct (chi2n_map_ok e im im (ErrScalar 2) nt false np true false true 2 2 eq_refl eq_refl ltac:(lia) ltac:(lia) ltac:(cbn; lra) (or_introl eq_refl) ltac:(discriminate))
    as [c [t1 [t2 [t3 [E [Sc [_ [_ V]]]]]]]].
  assert (T : forall f, pixel_sum 2 2 f = f 0%Z 0%Z + f 0%Z 1%Z + (f 1%Z 0%Z + f 1%Z 1%Z)).
  { intros f. unfold pixel_sum. change 2%Z with (0 + 1 + 1)%Z. rewrite !sumR_S, !sumR_0 by lia. cbn. ring. }
  assert (U : forall y x, used_image false (ErrScalar 2) im 2 2 y x = if (y =? 0)%Z && (x =? 0)%Z then 1 else 0).
  { intros y x. unfold used_image, err_zero, prep, px. cbn [im get mk2]. destruct (_ && _); reflexivity. }
  assert (UW : forall y x, used_weight false (ErrScalar 2) im 2 2 y x = if (y =? 0)%Z && (x =? 0)%Z then 1 else 0).
  { intros y x. unfold used_weight, err_zero, weight. cbn [im get mk2]. destruct (_ && _); [rewrite Rabs_R1|rewrite Rabs_R0]; ring. }
  assert (VV : forall k l, (0 <= k < 2)%Z -> (0 <= l < 2)%Z -> g2 c k l = if (k =? 0)%Z && (l =? 0)%Z then 0 else 1 / 2).
  { intros k l Hk Hl. destruct (V k l Hk Hl) as [_ [_ ->]]. cbv zeta. unfold chi2_of. rewrite !T.
    assert (k = 0 \/ k = 1)%Z as [-> | ->] by lia; assert (l = 0 \/ l = 1)%Z as [-> | ->] by lia;
    change ((2 - 1) / 2 - 0)%Z with 0%Z; change ((2 - 1) / 2 - 1)%Z with (-1)%Z; rewrite !U; cbn; field. }
  assert (D : chi2_error eps false (ErrScalar 2) im im 2 2 = (1 + eps) ^ 16 - 1).
  { unfold chi2_error, chi2_size. cbv zeta. rewrite !T, !UW. cbn [Z.eqb andb sigma_of]. field. }
  assert (DD : node_error eps false (ErrScalar 2) im im 2 2 c = 4 * ((1 + eps) ^ 16 - 1) + (3 / 2 + 4 * ((1 + eps) ^ 16 - 1)) * ((1 + eps) ^ 5 - 1)).
  { unfold node_error. cbv zeta. rewrite D, T, !VV by lia. cbn [Z.eqb andb]. rewrite Rabs_R0, Rabs_right by lra. change (IZR (2 * 2)) with 4. field. }
  assert (DB : node_error eps false (ErrScalar 2) im im 2 2 c <= 1 / 10).
  { rewrite DD. set (a := (1 + eps) ^ 16) in *. set (b := (1 + eps) ^ 5) in *.
    assert (Q : (3 / 2 + 4 * (a - 1)) * (b - 1) <= (3 / 2 + 4 * (1 / 100)) * (1 / 100)).
    { cbn [pow] in E16, E5. apply Rmult_le_compat; lra. }
    cbn [pow] in E16, E5. lra. }
  assert (G : forall i, grid_shift 2 0 2 1 i = - IZR i).
  { intros i. unfold grid_shift. change ((2 - 1) / 2)%Z with 0%Z. cbn [Z.even]. field. }
  assert (N : forall a b, (0 <= a < 2)%Z -> (0 <= b < 2)%Z -> chi2_at 2 2 c (grid_shift 2 0 2 1 a) (grid_shift 2 0 2 1 b) = if (a =? 0)%Z && (b =? 0)%Z then 0 else 1 / 2).
  { intros a b Ha Hb. rewrite !G, <- VV by lia. unfold chi2_at. change ((2 - 1) / 2)%Z with 0%Z. rewrite (tiR_ext [2; 2]%Z (get c) (img2 (g2 c))).
    - replace (0 - - IZR a) with (IZR a) by ring. replace (0 - - IZR b) with (IZR b) by ring. rewrite tiR_int2 by lia. rewrite !Z.mod_small by lia. reflexivity.
    - intros y Hin. apply inb2 in Hin. destruct Hin as [y1 [x1 [-> _]]]. reflexivity. }
  assert (ND : forall a b, (0 <= a < 2)%Z -> (0 <= b < 2)%Z -> (a, b) <> (0, 0)%Z -> (a =? 0)%Z && (b =? 0)%Z = false).
  { intros a b Ha Hb Q. destruct (Z.eqb_spec a 0) as [->|]; [|reflexivity]. destruct (Z.eqb_spec b 0) as [->|]; [exfalso; apply Q; reflexivity|reflexivity]. }
  assert (FG : final_grid e UAuto 2 2 c 0 0 2 mns nf 1 2 2).
  { cbn [final_grid]. split; [reflexivity|]. split; [reflexivity|]. exists 1%Z. split; [lia|]. split; [rewrite Rmax_left by lra; reflexivity|]. rewrite Hsci.
    right. split; [lia|]. split.
    - intros y x y' x' [? [? _]] [? [? _]]. lia.
    - exists 1%Z, 0%Z, 0%Z, 0%Z. unfold near_min. rewrite !VV by lia. cbn [Z.eqb andb]. repeat split; try lia; try lra. }
  assert (A16 : 1 <= (1 + eps) ^ 16 <= 1 + 1 / 100) by (cbn [pow] in E16 |- *; cbn [pow] in F16; lra).
  destruct (C122_double_errors 2 2 1 ltac:(lia) ltac:(lia) Rlt_0_1) as [QP QB].
  assert (US' : u64 <= / 10 ^ 8) by exact US. rewrite <- u64_val in QP, QB.
  assert (QP' : position_error u64 2 2 1 <= 1 / 100000) by lra.
  assert (QP0 : 0 <= position_error u64 2 2 1) by (unfold position_error; assert (1 <= (1 + u64) ^ 12) by (apply pow_R1_Rle; lra); apply Rmult_le_pos; lra).
  assert (SA : pixel_sum 2 2 (fun k l => Rabs (g2 c k l)) = 3 / 2).
  { rewrite T, !VV by lia. cbn [Z.eqb andb]. rewrite Rabs_R0, Rabs_right by lra. lra. }
  set (DF := node_error_fp eps u64 false (ErrScalar 2) im im 2 2 c 1 2 2).
  assert (DFB : 0 <= DF <= 12 / 100).
  { unfold DF, node_error_fp. rewrite SA. assert (0 <= node_error eps false (ErrScalar 2) im im 2 2 c).
    { rewrite DD. assert (0 <= (3 / 2 + 4 * ((1 + eps) ^ 16 - 1)) * ((1 + eps) ^ 5 - 1)) by (apply Rmult_le_pos; lra). lra. }
    assert (0 <= PI * (3 / 2) * (position_error u64 2 2 1 + position_error u64 2 2 1)) by (apply Rmult_le_pos; lra).
    assert (PI * (3 / 2) * (position_error u64 2 2 1 + position_error u64 2 2 1) <= 4 * (3 / 2) * (1 / 100000 + 1 / 100000)) by (apply Rmult_le_compat; lra). lra. }
  destruct (C122_double 1 [2]%Z [2]%Z (float_arith [[2]; [2]]%Z) float_sarith (float_zarith [[2]; [2]]%Z) (PI * 4) e im im (ErrScalar 2) UAuto nt np false nf true false 2 mns true 1 2 2 (159358435 / 100000000) c t1 t2 t3 0 0 0 0)
    as [dx [dy [ex [ey [dx' [dy' [ex' [ey' [xs [xs' [ys [ys' [us [us' [R1 [R2 [RX [RY [_ [_ [_ [_ [_ [_ [_ R3]]]]]]]]]]]]]]]]]]]]]]]]]; change (prodZ [2])%Z with 2%Z; try lia; try reflexivity; auto.
  - apply C113_nonvacuous.
  - fold m eps. lra.
  - cbn. lra.
  - left. reflexivity.
  - cbn. lia.
  - unfold phase_room_fp. apply Rmult_le_compat_l; [left; apply PI_RGT_0|lra].
  - unfold phase_room_fp. apply Rmult_le_compat_l; [left; apply PI_RGT_0|lra].
  - fold m eps. intros k l Hk Hl Q. rewrite D, !VV, (ND k l) by (auto; lia). cbn [Z.eqb andb]. lra.
  - cbv zeta. fold m eps. fold DF. intros a b Ha Hb Q. rewrite !N, (ND a b) by (auto; lia). cbn [Z.eqb andb]. lra.
  - fold m eps. intros _ k l Hk Hl. unfold auto_level. rewrite Hsci, D, !VV by lia. left.
    refine (Rle_lt_trans _ ((1 / 2 + 2 * (1 / 100)) * (1 + 1 / 100000)) _ _ _); [cbn [Z.eqb andb]; destruct ((k =? 0)%Z && (l =? 0)%Z); apply Rmult_le_compat; lra|lra].
  - change (prodZ [2])%Z with 2%Z in R1, R2, R3, RX, RY. cbn [app] in R1, R2. fold m eps DF in R3.
    destruct R3 as [BX BY].
    { intros a b Ha Hb. fold m eps DF. rewrite !N by (auto; lia). left.
      refine (Rle_lt_trans _ ((1 / 2 + 2 * (12 / 100)) * (1 + 1 / 100000)) _ _ _); [cbn [Z.eqb andb]; destruct ((a =? 0)%Z && (b =? 0)%Z); apply Rmult_le_compat; lra|lra]. }
    assert (Z : dx' = 0 /\ dy' = 0).
    { destruct (C115_nonvacuous e nt np nf mns Hsci) as [k1 [k2 [_ K]]]. cbv zeta in K. fold im in K. rewrite R2 in K. injection K as -> -> _ _. auto. }
    destruct Z as [-> ->]. rewrite Rminus_0_r in RX, RY. exists dx, dy, ex, ey, ex', ey'. rewrite <- u64_val.
    split; [exact R1|]. split; [exact R2|]. repeat split; lra.
Qed.
