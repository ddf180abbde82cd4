(** C126: the README recipe in floating point: the offset from chi2_shift, then the second image shifted back *)
From Coq Require Import ZArith Lia List Reals Lra Bool.
From Coquelicot Require Import Complex.
From Verif Require Import Base NDim DFT Kernel Num Py Sum2 M_fast_ffts M_shift M_scale M_zoom M_upsample M_convolve M_correlate Arg M_chi2 M_xcorr M_register M_rounding M_rounding2 M_rounding3 M_rounding4 M_rounding6 M_rounding9
  Spec L_shift L_scale L_upsample L_convolve Spec2 Spec3 Spec4 L_correlate L_chi2 L_zoom L_register L_register2 L_register3
  L_chi2shift L_fshift P_shift P_chi2map P_chi2errors P_chi2shift P_chi2shift2 P_rounding P_rounding2 L_iterzoom2 L_accuracy P_accuracy L_rounding3 P_rounding3 P_rounding4 L_rounding6 P_rounding6 P_rounding9.
Import ListNotations.
Open Scope R_scope.

Section Norms.
Variables ny nx : Z.
Lemma norm2_add f g : norm2 ny nx (fun i j => f i j + g i j) <= norm2 ny nx f + norm2 ny nx g.
Proof.
  rewrite !norm2_l2. assert (T := l2_triangle [ny; nx] (fun y => RtoC (img2 f y)) (fun _ => RtoC 0) (fun y => RtoC (- img2 g y))).
  rewrite (l2_ext _ (fun y => RtoC (img2 (fun i j => f i j + g i j) y)) (fun i => Cminus (RtoC (img2 f i)) (RtoC (- img2 g i)))).
  - refine (Rle_trans _ _ _ T _). apply Rplus_le_compat; right; apply l2_ext; intros i _; rewrite ?RtoC_opp; ring.
  - intros k Hk. apply inb2 in Hk. destruct Hk as [y [x [-> _]]]. cbn [img2]. rewrite <- RtoC_minus. f_equal. ring.
Qed.
Lemma norm2_bound f e : (0 <= ny)%Z -> (0 <= nx)%Z -> 0 <= e -> (forall i j, (0 <= i < ny)%Z -> (0 <= j < nx)%Z -> Rabs (f i j) <= e) -> norm2 ny nx f <= sqrt (IZR (ny * nx)) * e.
Proof.
  intros Hy Hx He H. unfold norm2. rewrite <- (sqrt_pow2 e He) at 1. rewrite <- sqrt_mult_alt by (apply IZR_le; nia). apply sqrt_le_1_alt.
  rewrite <- (sum2_const ny nx (e ^ 2)) by auto. apply sum2_le. intros i j Hi Hj. rewrite <- (pow2_abs (f i j)). apply pow_incr. split; [apply Rabs_pos|auto].
Qed.
End Norms.
Lemma norm2_ext ny nx f g : (forall i j, (0 <= i < ny)%Z -> (0 <= j < nx)%Z -> f i j = g i j) -> norm2 ny nx f = norm2 ny nx g.
Proof. intros H. unfold norm2. f_equal. apply sum2_ext. intros i j Hi Hj. rewrite H; auto. Qed.

(** how far an axis of n pixels can be shifted *)
Definition shift_range (mu : R) (n s : Z) (u : R) : R := IZR n + IZR s / (2 * u) + position_error mu n s u.

Theorem C126_recipe :
  forall A S B eps mu T e im1 im2 err s us nthreads use_np nfitted (ret_err ret_arr : bool) mas mns allow_huge ny nx u s1 s2 t map0 t1 t2 t3 ym xm i j A' B' eps' T',
  shape im1 = [ny; nx] -> shape im2 = [ny; nx] -> (0 < ny)%Z -> (0 < nx)%Z -> size_ok e allow_huge ny nx ->
  (err = ErrNone /\ s = 1 \/ err = ErrScalar s /\ s <> 0) ->
  grid_given us ny nx mas -> final_grid e us ny nx map0 ym xm mas mns nfitted u s1 s2 -> factor_clear mu us ny ->
  phase_room_fp T mu ny s1 u -> phase_room_fp T mu nx s2 u -> one_sigma e t ->
  accurate eps [ny; nx] A -> accurate_scalar eps (Z.to_nat (ny * nx)) S -> accurate_zoom eps T [ny; nx] B -> eps <= 1 / 2 ->
  rounds mu S -> mu <= 1 / 4 -> sa_rd S 1 = 1 ->
  (* the transforms and exponentials used by shiftnd *)
  accurate eps' [ny; nx] A' -> accurate_exp eps' T' B' -> PI * (shift_range mu ny s1 u + shift_range mu nx s2 u) * (1 + mu) ^ 9 <= T' ->
  chi2n_map e im1 im2 err BWrap nthreads false use_np true false allow_huge = Ok (Chi2All map0 t1 t2 t3) ->
  (0 <= ym < ny)%Z -> (0 <= xm < nx)%Z -> (0 <= i < s1)%Z -> (0 <= j < s2)%Z ->
  let d := chi2_error eps false err im1 im2 ny nx in let D := node_error_fp eps mu false err im1 im2 ny nx map0 u s1 s2 in
  let chi2_node := fun a b => chi2_at ny nx map0 (grid_shift ny ym s1 u a) (grid_shift nx xm s2 u b) in
  (forall k l, (0 <= k < ny)%Z -> (0 <= l < nx)%Z -> (k, l) <> (ym, xm) -> g2 map0 ym xm + 2 * d < g2 map0 k l) ->
  (forall a b, (0 <= a < s1)%Z -> (0 <= b < s2)%Z -> (a, b) <> (i, j) -> chi2_node i j + 2 * D < chi2_node a b) ->
  (us = UAuto -> forall k l, (0 <= k < ny)%Z -> (0 <= l < nx)%Z ->
     match auto_level e mns nfitted with Fin lv => clear_of eps d lv (g2 map0 k l - g2 map0 ym xm) | NaN => True end) ->
  exists xoff yoff rest corrected,
    chi2_shift_fp A S B e im1 im2 err us BWrap false nfitted ret_err ret_arr mas mns allow_huge = Ok (RNum xoff :: RNum yoff :: rest) /\
    shiftnd_fp A' B' S (of_num im2) [- yoff; - xoff] 0 false true = Ok (RealArr corrected) /\ shape corrected = [ny; nx] /\
    let r := shift_error eps' mu (of_num im2) [- yoff; - xoff] 0 [position_error mu ny s1 u; position_error mu nx s2 u] false true in
    forall ty tx, in_window ny ym s1 u ty -> in_window nx xm s2 u tx ->
      norm2 ny nx (fun i j => get corrected [i; j] - px im1 i j) <=
        mismatch ny nx (px im1) (px im2) ty tx + PI / u * norm2 ny nx (px im1) + sqrt (IZR (ny * nx)) * r.
Proof.
  intros A S B eps mu T e im1 im2 err s us nt np nf re rc mas mns huge ny nx u s1 s2 t map0 t1 t2 t3 ym xm i j A' B' eps' T'
    H1 H2 Hy Hx Hh Hs Hg FG FC RY RX Ht HA HS HB He HR Hm Hrd1 HA' HB' HT' F Hym Hxm Hi Hj d D chi2_node HD HN HL.
  assert (Eok : err_ok err ny nx) by (destruct Hs as [[-> _]|[-> Hs]]; cbn; auto).
  destruct (C122_rounded_answer A S B eps mu T e im1 im2 err us nt np false nf re rc mas mns huge ny nx u s1 s2 t map0 t1 t2 t3 ym xm i j
    H1 H2 Hy Hx Eok Hh Hg FG FC RY RX Ht HA HS HB He HR Hm Hrd1 F Hym Hxm Hi Hj HD HN HL)
    as [dx [dy [ex [ey [dx' [dy' [ex' [ey' [xs [xs' [ys [ys' [ups [ups' [R1 [R2 [EX [EY _]]]]]]]]]]]]]]]]]].
  destruct (C116_corrected e im1 im2 err s us nt np nf re rc mas mns huge ny nx t 1%Z false H1 H2 Hy Hx Hh Hs Hg Ht)
    as [map0' [t1' [t2' [t3' [ym' [xm' [u0 [s10 [s20 [x [y [rest [out [F' [AM [FG' [R2' [SH [SO [_ W]]]]]]]]]]]]]]]]]]]].
  rewrite F in F'. injection F' as <- <- <- <-. rewrite R2 in R2'. injection R2' as -> -> Hrest.
  destruct (C43_full_result e im1 im2 err us nt np false nf re rc mas mns huge ny nx t H1 H2 Hy Hx Eok Hh Hg Ht)
    as [c1 [a1 [a2 [a3 [ym2 [xm2 [u2 [r1 [r2 [xv [yv [upm [i2 [j2 [xlo [xhi [ylo [yhi [F1 [F2 [F3 [_ [_ [_ [_ [F8 [_ F10]]]]]]]]]]]]]]]]]]]]]]]]]]].
  rewrite F in F1. injection F1 as <- <- <- <-. rewrite R2 in F10. injection F10 as Ex Ey _.
  assert (D0 : 0 <= d).
  { destruct (map_rd_near A S eps e im1 im2 err false true false huge ny nx H1 H2 Hy Hx Eok Hh ltac:(discriminate) HA HS He) as [c' [? [? [? [_ [_ V']]]]]].
    exact (Rle_trans _ _ _ (Rabs_pos _) (proj1 (proj2 (V' 0%Z 0%Z ltac:(lia) ltac:(lia))))). }
  assert (UM : forall p q, is_argmin2 ny nx (g2 map0) (p, q) -> p = ym /\ q = xm).
  { intros p q [A1 [A2 [A3 _]]]. cbn [fst snd] in *. destruct (Z.eq_dec p ym) as [->|Np]; [destruct (Z.eq_dec q xm) as [->|Nq]; [auto|]|]; exfalso.
    - assert (Q := HD ym q A1 A2 ltac:(congruence)). specialize (A3 ym xm Hym Hxm). lra.
    - assert (Q := HD p q A1 A2 ltac:(congruence)). specialize (A3 ym xm Hym Hxm). lra. }
  destruct (UM _ _ AM) as [-> ->]. destruct (UM _ _ F2) as [-> ->]. clear UM.
  destruct (final_grid_unique _ _ _ _ _ _ _ _ _ _ _ _ _ _ _ _ FG FG') as [-> [-> ->]].
  destruct (final_grid_unique _ _ _ _ _ _ _ _ _ _ _ _ _ _ _ _ FG F3) as [-> [-> ->]]. clear FG' F3.
  assert (U0 : 0 < u).
  { assert (AM' := AM). destruct (final_window e us ny nx map0 ym xm mas mns nf Hy Hx Hg AM) as [u1 [q1 [q2 [_ [FG1 [U0 _]]]]]].
    destruct (final_grid_unique _ _ _ _ _ _ _ _ _ _ _ _ _ _ _ _ FG FG1) as [-> _]. exact U0. }
  destruct F8 as [I2 [J2 _]]. cbn [fst snd] in I2, J2.
  assert (GB : forall n m s k, (0 < n)%Z -> (0 <= m < n)%Z -> (0 <= k < s)%Z -> Rabs (grid_shift n m s u k) <= IZR n + IZR s / (2 * u)).
  { intros n m s0 k Hn Hmm Hk. assert (G := grid_shift_near n m s0 u k U0 Hk).
    replace (grid_shift n m s0 u k) with ((grid_shift n m s0 u k - IZR ((n - 1) / 2 - m)) + IZR ((n - 1) / 2 - m)) by ring.
    refine (Rle_trans _ _ _ (Rabs_triang _ _) _).
    assert (Z1 : Rabs (IZR ((n - 1) / 2 - m)) <= IZR n - 1) by (rewrite <- abs_IZR, <- minus_IZR; apply IZR_le; Z.to_euclidean_division_equations; lia).
    assert (IU : 0 < / u) by (apply Rinv_0_lt_compat; auto).
    replace ((IZR s0 - 1) / 2 / u) with (IZR s0 / (2 * u) - / u / 2) in G by (field; lra). destruct (Z.even n); lra. }
  assert (BX : Rabs x <= IZR nx + IZR s2 / (2 * u)) by (rewrite Ex; apply GB; auto).
  assert (BY : Rabs y <= IZR ny + IZR s1 / (2 * u)) by (rewrite Ey; apply GB; auto).
  assert (WE : within_each [position_error mu ny s1 u; position_error mu nx s2 u] [- dy; - dx] [- y; - x]).
  { constructor; [|constructor; [|constructor]].
    - replace (- dy - - y) with (- (dy - y)) by ring. rewrite Rabs_Ropp. exact EY.
    - replace (- dx - - x) with (- (dx - x)) by ring. rewrite Rabs_Ropp. exact EX. }
  assert (m0 := proj1 HR). assert (PP := PI_RGT_0).
  assert (LPB : largest_phase [- dy; - dx] 0 * (1 + mu) ^ (length [- dy; - dx] + 7) <= T').
  { refine (Rle_trans _ _ _ _ HT'). cbn [length Nat.add]. apply Rmult_le_compat_r; [left; apply pow_lt; lra|]. unfold largest_phase. cbn [map fold_right]. rewrite Rabs_R0, !Rabs_Ropp, !Rplus_0_r.
    apply Rmult_le_compat_l; [lra|]. unfold shift_range. 
    assert (Q1 := Rabs_triang (dy - y) y). assert (Q2 := Rabs_triang (dx - x) x). replace (dy - y + y) with dy in Q1 by ring. replace (dx - x + x) with dx in Q2 by ring. lra. }
  assert (SI : shape (of_num im2) = [ny; nx]) by (cbn [of_num amap shape]; exact H2).
  assert (SHF := C125_shiftnd eps' mu T' A' B' S (e_fftw e) (of_num im2) [- y; - x] [- dy; - dx] _ 0 1 false false true ltac:(rewrite SI; exact HA') HB' HR WE LPB).
  assert (C7 := C07_shift2d_is_shiftnd (e_fftw e) (of_num im2) ny nx (- x) (- y) 0 1 false false true SI). rewrite SH in C7.
  destruct (shiftnd (e_fftw e) (of_num im2) [- y; - x] 0 1 false false true) as [o|]; [|contradiction]. destruct o as [o|]; [|contradiction].
  destruct C7 as [C7s C7g]. rewrite SO in C7s, C7g. destruct SHF as [o' [E1 WP]]. destruct o' as [o'|]; [|contradiction]. destruct WP as [Ws Wg]. rewrite <- C7s in Ws. rewrite Ws in Wg.
  exists dx, dy, ((if re then [RNum ex; RNum ey] else []) ++ (if rc then [RMaps xs ys ups] else [])), o'.
  split; [exact R1|]. split; [exact E1|]. split; [exact Ws|]. cbv zeta. intros ty tx Wy Wx. specialize (W ty tx Wy Wx).
  set (r := shift_error eps' mu (of_num im2) [- dy; - dx] 0 [position_error mu ny s1 u; position_error mu nx s2 u] false true) in *.
  assert (WG : forall a b, (0 <= a < ny)%Z -> (0 <= b < nx)%Z -> Rabs (get o' [a; b] - get out [a; b]) <= r).
  { intros a b Ha Hb. assert (I := inb2_intro ny nx a b Ha Hb). rewrite (C7g [a; b] I). apply Wg. exact I. }
  assert (r0 : 0 <= r) by (refine (Rle_trans _ _ _ (Rabs_pos _) (WG 0%Z 0%Z ltac:(lia) ltac:(lia)))).
  rewrite (norm2_ext ny nx _ (fun a b => (get out [a; b] - px im1 a b) + (get o' [a; b] - get out [a; b]))) by (intros; ring).
  refine (Rle_trans _ _ _ (norm2_add ny nx _ _) _). apply Rplus_le_compat; [exact W|]. apply norm2_bound; auto; lia.
Qed.
Print Assumptions C126_recipe.
