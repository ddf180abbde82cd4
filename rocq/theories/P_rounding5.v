(** C120: cross_correlation_shifts with every operation rounded *)
From Coq Require Import ZArith Lia List Reals Lra Bool.
From Coquelicot Require Import Complex.
From Verif Require Import Base NDim DFT Kernel Num Py Sum2 M_fast_ffts M_shift M_scale M_zoom M_upsample M_convolve M_correlate Arg M_chi2 M_xcorr M_register M_rounding M_rounding2 M_rounding3 M_rounding5
  Spec L_shift L_scale L_upsample L_convolve Spec2 Spec3 Spec4 L_correlate L_chi2 L_register L_register2 L_register3
  L_chi2shift L_fshift L_xcorr P_xcorr P_xcorr2 P_xcorr3 P_chi2map P_chi2shift P_chi2shift2 P_register P_noise P_rounding P_rounding2 L_iterzoom2 L_rounding3 P_rounding3.
Import ListNotations.
Open Scope R_scope.

Lemma derivs_rd_mid S ny nx m y x : (1 <= y <= ny - 2)%Z -> (1 <= x <= nx - 2)%Z ->
  let rd := sa_rd S in
  local_derivs_rd S ny nx m y x = Ok (rd (rd (m y (x + 1)%Z - m y (x - 1)%Z) / 2), rd (rd (m (y + 1)%Z x - m (y - 1)%Z x) / 2),
    rd (rd (m (y + 1)%Z x + m (y - 1)%Z x) - rd (2 * m y x)), rd (rd (m y (x - 1)%Z + m y (x + 1)%Z) - rd (2 * m y x)),
    rd (1 / 4 * rd (rd (rd (m (y + 1)%Z (x - 1)%Z + m (y - 1)%Z (x + 1)%Z) - m (y + 1)%Z (x + 1)%Z) - m (y - 1)%Z (x - 1)%Z))).
Proof.
  intros Hy Hx rd. unfold local_derivs_rd. rewrite !slice_mid by lia.
  assert (E : forall w, m y w = m (y - 1 + 1)%Z w) by (intros; f_equal; lia).
  assert (Ex : forall w, m w x = m w (x - 1 + 1)%Z) by (intros; f_equal; lia).
  assert (E0 : forall w, m w (x - 1)%Z = m w (x - 1 + 0)%Z) by (intros; f_equal; lia).
  assert (E1 : forall w, m (y - 1)%Z w = m (y - 1 + 0)%Z w) by (intros; f_equal; lia).
  assert (E2 : forall w, m (y + 1)%Z w = m (y - 1 + 2)%Z w) by (intros; f_equal; lia).
  assert (E3 : forall w, m w (x + 1)%Z = m w (x - 1 + 2)%Z) by (intros; f_equal; lia).
  rewrite !E2, !E, !E1, !E3, !E0, !Ex. reflexivity.
Qed.

Lemma quot_err n' n d' d dn dd : Rabs (n' - n) <= dn -> Rabs (d' - d) <= dd -> dd < Rabs d ->
  d' <> 0 /\ d <> 0 /\ Rabs (n' / d' - n / d) <= (dn + Rabs (n / d) * dd) / (Rabs d - dd).
Proof.
  intros H1 H2 H3. assert (D0 : 0 <= dd) by (refine (Rle_trans _ _ _ (Rabs_pos _) H2)).
  assert (T := Rabs_triang_inv d (d - d')). replace (d - (d - d')) with d' in T by ring. rewrite (Rabs_minus_sym d d') in T.
  assert (P : 0 < Rabs d') by lra. assert (N : d' <> 0) by (intros ->; rewrite Rabs_R0 in P; lra).
  assert (N2 : d <> 0) by (intros ->; rewrite Rabs_R0 in H3; lra).
  split; [exact N|]. split; [exact N2|].
  replace (n' / d' - n / d) with (((n' - n) - n / d * (d' - d)) / d') by (field; auto). unfold Rdiv at 1. rewrite Rabs_mult, Rabs_inv.
  assert (Q : Rabs (n' - n - n / d * (d' - d)) <= dn + Rabs (n / d) * dd).
  { unfold Rminus at 1. refine (Rle_trans _ _ _ (Rabs_triang _ _) _). rewrite Rabs_Ropp, Rabs_mult. assert (K := Rmult_le_compat_l _ _ _ (Rabs_pos (n / d)) H2). lra. }
  assert (Q0 : 0 <= dn + Rabs (n / d) * dd) by (refine (Rle_trans _ _ _ (Rabs_pos _) Q)).
  apply Rle_trans with ((dn + Rabs (n / d) * dd) / Rabs d').
  - apply Rmult_le_compat_r; [left; apply Rinv_0_lt_compat; auto|exact Q].
  - apply Rmult_le_compat_l; [exact Q0|]. apply Rinv_le_contravar; lra.
Qed.

(** size of the numbers entering the correlation map: product of the sums of moduli over the number of pixels *)
Definition corr_size (zeromean : bool) (im1 im2 : arr num) (ny nx : Z) : R :=
  pixel_sum ny nx (weight zeromean im1 ny nx) * pixel_sum ny nx (weight zeromean im2 ny nx) / IZR (ny * nx).
(** error of an offset that is -(whole + n/d), given the errors en of n and ed of d *)
Definition offset_error (eps whole n d en ed : R) : R :=
  (1 + eps) ^ 2 * ((en + Rabs (n / d) * ed) / (Rabs d - ed)) + (1 + eps) * eps * Rabs (n / d) + eps * Rabs (whole + n / d).

Theorem C120_cross_correlation_shifts :
  forall A S eps e agpy im1 im2 er1 er2 zeromean nthreads use_np allow_huge ny nx dy dx,
  shape im1 = [ny; nx] -> shape im2 = [ny; nx] -> size_ok e allow_huge ny nx -> errim_ok er1 ny nx -> errim_ok er2 ny nx ->
  interior_shift ny dy -> interior_shift nx dx ->
  accurate eps [ny; nx] A -> accurate_scalar eps (Z.to_nat (ny * nx)) S ->
  let f := prep zeromean im1 ny nx in let g := prep zeromean im2 ny nx in
  let c := fun u v => ccf ny nx f g (dy + u) (dx + v) / IZR (ny * nx) in
  let M := corr_size zeromean im1 im2 ny nx in
  let err := M * ((1 + eps) ^ 11 - 1) in
  (* the best roll wins by twice the rounding error, and its correlation is not lost in it *)
  (forall s t, ((s - dy) mod ny <> 0 \/ (t - dx) mod nx <> 0)%Z -> ccf ny nx f g s t / IZR (ny * nx) + 2 * err < c 0%Z 0%Z) -> err < Rabs (c 0%Z 0%Z) ->
  let gx := (c 0%Z (-1)%Z - c 0%Z 1%Z) / 2 in let gy := (c (-1)%Z 0%Z - c 1%Z 0%Z) / 2 in
  let hy := c (-1)%Z 0%Z + c 1%Z 0%Z - 2 * c 0%Z 0%Z in let hx := c 0%Z 1%Z + c 0%Z (-1)%Z - 2 * c 0%Z 0%Z in
  let m := 1 / 4 * (c (-1)%Z 1%Z + c 1%Z (-1)%Z - c (-1)%Z (-1)%Z - c 1%Z 1%Z) in
  let det := m ^ 2 - hy * hx in let en := 5 * M ^ 2 * ((1 + eps) ^ 30 - 1) in let ed := 17 * M ^ 2 * ((1 + eps) ^ 32 - 1) in
  (* nor is the determinant of the second derivatives *)
  ed < Rabs det ->
  exists x y x' y',
    cross_correlation_shifts e agpy im1 im2 er1 er2 None false false zeromean BWrap nthreads use_np allow_huge = Ok [XF x; XF y] /\
    cross_correlation_shifts_rd A S (e_gb e) im1 im2 zeromean BWrap allow_huge = Ok [XF x'; XF y'] /\
    x = IZR dx + half_if_odd nx - (hx * gx - gy * m) / det /\ y = IZR dy + half_if_odd ny - (hy * gy - gx * m) / det /\
    Rabs (x' - x) <= offset_error eps (- IZR dx - half_if_odd nx) (hx * gx - gy * m) det en ed /\
    Rabs (y' - y) <= offset_error eps (- IZR dy - half_if_odd ny) (hy * gy - gx * m) det en ed.
Proof.
  intros A S eps e agpy im1 im2 er1 er2 zm nt np huge ny nx dy dx H1 H2 Hh He1 He2 Iy Ix HA HS f g c M err HB HC gx gy hy hx m det en ed HD.
  assert (By := interior_bounds ny dy Iy). assert (Bx := interior_bounds nx dx Ix).
  assert (Hy : (0 < ny)%Z) by (Z.to_euclidean_division_equations; lia). assert (Hx : (0 < nx)%Z) by (Z.to_euclidean_division_equations; lia).
  assert (e0 := proj1 HA). assert (pw : forall n, 1 <= (1 + eps) ^ n) by (intros; apply pow_R1_Rle; lra). assert (NP := size_pos ny nx Hy Hx).
  (* the rounded correlation map *)
  assert (Z1 : forall i j, (0 <= i < ny)%Z -> (0 <= j < nx)%Z -> near ((1 + eps) ^ 3) (weight zm im1 ny nx i j) (nan0 (get (zero_mean_rd S zm im1) [i; j])) (f i j))
    by (intros; apply (near_zero_mean eps _ S HS); auto).
  assert (Z2 : forall i j, (0 <= i < ny)%Z -> (0 <= j < nx)%Z -> near ((1 + eps) ^ 3) (weight zm im2 ny nx i j) (nan0 (get (zero_mean_rd S zm im2) [i; j])) (g i j))
    by (intros; apply (near_zero_mean eps _ S HS); auto).
  unfold cross_correlation_shifts_rd. rewrite H1, H2. destruct (list_eq_dec Z.eq_dec [ny; nx] [ny; nx]) as [_|N]; [|congruence]. cbn [negb]. cbv zeta. rewrite prodZ_2.
  set (f1 := fun i => nan0 (get (zero_mean_rd S zm im1) i)). set (f2 := fun i => nan0 (get (zero_mean_rd S zm im2) i)).
  destruct (near_corr A eps e f1 f2 (img2 f) (img2 g) (weight zm im1 ny nx) (weight zm im2 ny nx) ((1 + eps) ^ 3) ((1 + eps) ^ 3) huge ny nx Hy Hx Hh HA (pw 3%nat) (pw 3%nat) Z1 Z2)
    as [cc [E [Sc V]]].
  rewrite E. cbn [bind]. cbn [amap shape]. rewrite Sc. destruct (list_eq_dec Z.eq_dec [ny; nx] [ny; nx]) as [_|N]; [|congruence]. cbn [negb].
  set (r := g2 (Arr [ny; nx] (fun i => sa_rd S (get cc i / IZR (ny * nx))))).
  assert (NR : forall k l, (0 <= k < ny)%Z -> (0 <= l < nx)%Z -> near ((1 + eps) ^ 11) M (r k l) (cmap ny nx f g k l)).
  { intros k l Hk Hl. unfold r, g2. cbn [get]. apply (near_rdp S eps ny nx HS 10%nat). specialize (V k l Hk Hl). apply (near_scal _ _ (/ IZR (ny * nx))) in V.
    rewrite Rabs_right in V by (left; apply Rinv_0_lt_compat; auto). unfold M, corr_size, cmap, Rdiv. rewrite Rmult_comm. 
    replace (get cc [k; l] * / IZR (ny * nx)) with (/ IZR (ny * nx) * g2 cc k l) by (unfold g2; ring).
    replace (ccf ny nx f g ((ny - 1) / 2 - k) ((nx - 1) / 2 - l) * / IZR (ny * nx)) with (/ IZR (ny * nx) * sum2 ny nx (fun i j => img2 g [i; j] * img2 f [((i - ((ny - 1) / 2 - k)) mod ny)%Z; ((j - ((nx - 1) / 2 - l)) mod nx)%Z])).
    2:{ rewrite (Rmult_comm (ccf _ _ _ _ _ _)). f_equal. unfold ccf. apply sum2_ext. intros. cbn [img2]. ring. }
    eapply near_eq; [exact V|ring|reflexivity]. }
  set (ym := ((ny - 1) / 2 - dy)%Z) in *. set (xm := ((nx - 1) / 2 - dx)%Z) in *.
  assert (MC : forall a b u v, (((ny - 1) / 2 - a) - dy = u)%Z -> (((nx - 1) / 2 - b) - dx = v)%Z -> cmap ny nx f g a b = c u v).
  { intros a b u v Ea Eb. unfold cmap, c. f_equal. f_equal; lia. }
  assert (C0 : cmap ny nx f g ym xm = c 0%Z 0%Z) by (apply MC; unfold ym, xm; lia).
  assert (RD : forall k l, (0 <= k < ny)%Z -> (0 <= l < nx)%Z -> Rabs (r k l - cmap ny nx f g k l) <= err) by (intros k l Hk Hl; apply (NR k l Hk Hl)).
  assert (AM : argmax2 ny nx r = (ym, xm)).
  { apply argmin2_strict; try lia. intros i j Hi Hj Hn. apply Ropp_lt_contravar.
    assert (Q1 := RD i j Hi Hj). assert (Q2 := RD ym xm ltac:(lia) ltac:(lia)). rewrite C0 in Q2. apply Rcomplements.Rabs_le_between in Q1. apply Rcomplements.Rabs_le_between in Q2.
    assert (W : cmap ny nx f g i j + 2 * err < c 0%Z 0%Z); [|lra]. unfold cmap. apply HB.
    destruct (Z.eq_dec i ym) as [->|Ni].
    - right. intros EE. assert (G : ((nx - 1) / 2 - j - dx = 0)%Z) by (apply (mod0_small nx); auto; unfold xm in *; lia). apply Hn. f_equal. unfold xm. lia.
    - left. intros EE. assert (G : ((ny - 1) / 2 - i - dy = 0)%Z) by (apply (mod0_small ny); auto; unfold ym in *; lia). unfold ym in *. lia. }
  match goal with |- context [argmax2 ny nx ?m] => change m with r end. rewrite AM.
  assert (RN : r ym xm <> 0).
  { intros Z0. assert (Q2 := RD ym xm ltac:(lia) ltac:(lia)). rewrite C0, Z0 in Q2. rewrite Rabs_minus_sym, Rminus_0_r in Q2. lra. }
  destruct (Req_EM_T (r ym xm) 0) as [Z0|_]; [contradiction|].
  rewrite derivs_rd_mid by lia. cbn [bind].
  (* the nine values *)
  assert (NV : forall a b u v, (-1 <= u <= 1)%Z -> (-1 <= v <= 1)%Z -> (a = ym - u)%Z -> (b = xm - v)%Z -> near ((1 + eps) ^ 11) M (r a b) (c u v)).
  { intros a b u v Hu Hv Ea Eb. rewrite <- (MC a b u v) by (unfold ym, xm in *; lia). apply NR; lia. }
  assert (M0 : 0 <= M) by (apply (near_M _ _ _ _ (NV ym xm 0%Z 0%Z ltac:(lia) ltac:(lia) ltac:(lia) ltac:(lia)))).
  assert (np_rd := near_rdp S eps ny nx HS). assert (np_w := near_p S eps ny nx HS).
  assert (N_sub : forall n p P x' x y' y, near ((1 + eps) ^ n) p x' x -> near ((1 + eps) ^ n) P y' y -> near ((1 + eps) ^ n) (p + P) (x' - y') (x - y)).
  { intros n p P x' x y' y A1 A2. unfold Rminus. apply near_add; auto. apply near_opp. auto. }
  set (GX := sa_rd S (sa_rd S (r ym (xm + 1)%Z - r ym (xm - 1)%Z) / 2)). set (GY := sa_rd S (sa_rd S (r (ym + 1)%Z xm - r (ym - 1)%Z xm) / 2)).
  set (HY := sa_rd S (sa_rd S (r (ym + 1)%Z xm + r (ym - 1)%Z xm) - sa_rd S (2 * r ym xm))). set (HX := sa_rd S (sa_rd S (r ym (xm - 1)%Z + r ym (xm + 1)%Z) - sa_rd S (2 * r ym xm))).
  set (MM := sa_rd S (1 / 4 * _)).
  assert (GR : forall a' a b' b, near ((1 + eps) ^ 11) M a' a -> near ((1 + eps) ^ 11) M b' b -> near ((1 + eps) ^ 13) M (sa_rd S (sa_rd S (a' - b') / 2)) ((a - b) / 2)).
  { intros a' a b' b A1 A2. apply (np_rd 12%nat). assert (Q := np_rd 11%nat _ _ _ (N_sub 11%nat _ _ _ _ _ _ A1 A2)). apply (near_scal _ _ (/ 2)) in Q. rewrite Rabs_right in Q by lra.
    unfold Rdiv. rewrite (Rmult_comm (sa_rd S _)), (Rmult_comm (a - b)). eapply near_eq; [exact Q|reflexivity|lra]. }
  assert (NGX : near ((1 + eps) ^ 13) M GX gx) by (apply GR; apply NV; lia). assert (NGY : near ((1 + eps) ^ 13) M GY gy) by (apply GR; apply NV; lia).
  assert (HR : forall a' a b' b z' z, near ((1 + eps) ^ 11) M a' a -> near ((1 + eps) ^ 11) M b' b -> near ((1 + eps) ^ 11) M z' z -> near ((1 + eps) ^ 13) (4 * M) (sa_rd S (sa_rd S (a' + b') - sa_rd S (2 * z'))) (a + b - 2 * z)).
  { intros a' a b' b z' z A1 A2 A3. apply (np_rd 12%nat). assert (Q1 := np_rd 11%nat _ _ _ (near_add _ _ _ _ _ _ _ A1 A2)). assert (Q2 := np_rd 11%nat _ _ _ (near_scal _ _ 2 _ _ A3)). rewrite (Rabs_right 2) in Q2 by lra.
    eapply near_eq; [exact (N_sub 12%nat _ _ _ _ _ _ Q1 Q2)|reflexivity|ring]. }
  assert (NHY : near ((1 + eps) ^ 13) (4 * M) HY hy) by (apply HR; apply NV; lia). assert (NHX : near ((1 + eps) ^ 13) (4 * M) HX hx).
  { unfold hx. rewrite (Rplus_comm (c 0%Z 1%Z)), (Rplus_comm (c 0%Z (-1)%Z)). apply HR; apply NV; lia. }
  assert (NMM : near ((1 + eps) ^ 15) M MM m).
  { unfold MM, m. apply (np_rd 14%nat).
    assert (Q1 : near ((1 + eps) ^ 12) (M + M) (sa_rd S (r (ym + 1)%Z (xm - 1)%Z + r (ym - 1)%Z (xm + 1)%Z)) (c (-1)%Z 1%Z + c 1%Z (-1)%Z)) by (apply (np_rd 11%nat), near_add; apply NV; lia).
    assert (Q2 := np_rd 12%nat _ _ _ (N_sub 12%nat _ _ _ _ _ _ Q1 (np_w 11%nat 12%nat _ _ _ (NV (ym + 1)%Z (xm + 1)%Z (-1)%Z (-1)%Z ltac:(lia) ltac:(lia) ltac:(lia) ltac:(lia)) ltac:(lia)))).
    assert (Q3 := np_rd 13%nat _ _ _ (N_sub 13%nat _ _ _ _ _ _ Q2 (np_w 11%nat 13%nat _ _ _ (NV (ym - 1)%Z (xm - 1)%Z 1%Z 1%Z ltac:(lia) ltac:(lia) ltac:(lia) ltac:(lia)) ltac:(lia)))).
    apply (near_scal _ _ (1 / 4)) in Q3. rewrite Rabs_right in Q3 by lra. eapply near_eq; [exact Q3|reflexivity|field]. }
  set (DET := sa_rd S (sa_rd S (MM ^ 2) - sa_rd S (HY * HX))).
  assert (ND : near ((1 + eps) ^ 32) (17 * M ^ 2) DET det).
  { unfold DET, det. apply (np_rd 31%nat). assert (Q1 := np_rd 30%nat _ _ _ (near_sqp eps 15%nat _ _ _ NMM)). assert (Q2 := np_rd 26%nat _ _ _ (near_mulp eps 13%nat 13%nat _ _ _ _ _ _ NHY NHX)).
    eapply near_eq; [exact (N_sub 31%nat _ _ _ _ _ _ Q1 (np_w 27%nat 31%nat _ _ _ Q2 ltac:(lia)))|reflexivity|ring]. }
  assert (NN : forall H' h G' gg K' k, near ((1 + eps) ^ 13) (4 * M) H' h -> near ((1 + eps) ^ 13) M G' gg -> near ((1 + eps) ^ 13) M K' k ->
    near ((1 + eps) ^ 30) (5 * M ^ 2) (sa_rd S (sa_rd S (H' * G') - sa_rd S (K' * MM))) (h * gg - k * m)).
  { intros H' h G' gg K' k A1 A2 A3. apply (np_rd 29%nat). assert (Q1 := np_rd 26%nat _ _ _ (near_mulp eps 13%nat 13%nat _ _ _ _ _ _ A1 A2)). assert (Q2 := np_rd 28%nat _ _ _ (near_mulp eps 13%nat 15%nat _ _ _ _ _ _ A3 NMM)).
    eapply near_eq; [exact (N_sub 29%nat _ _ _ _ _ _ (np_w 27%nat 29%nat _ _ _ Q1 ltac:(lia)) Q2)|reflexivity|ring]. }
  assert (NX1 := NN _ _ _ _ _ _ NHX NGX NGY). assert (NY1 := NN _ _ _ _ _ _ NHY NGY NGX).
  assert (DE : Rabs (DET - det) <= ed) by apply ND.
  assert (XE : forall whole n' n, Rabs (n' - n) <= en -> exists v, xnegadd_rd S whole (xrd S (xdiv (XF n') (XF DET))) = XF v /\ Rabs (v - - (whole + n / det)) <= offset_error eps whole n det en ed).
  { intros whole n' n Hn. destruct (quot_err n' n DET det en ed Hn DE HD) as [N1 [N2 Q]]. rewrite (xdiv_ok n' DET N1). cbn [xrd xnegadd_rd]. eexists. split; [reflexivity|].
    set (q' := n' / DET) in *. set (q := n / det) in *. unfold offset_error. fold q. set (B := (en + Rabs q * ed) / (Rabs det - ed)) in *.
    assert (R1 := proj1 (proj2 HS) q'). assert (R2 := proj1 (proj2 HS) (whole + sa_rd S q')). set (q'' := sa_rd S q') in *. set (s'' := sa_rd S (whole + q'')) in *.
    assert (T1 : Rabs q' <= B + Rabs q). { replace q' with ((q' - q) + q) by ring. refine (Rle_trans _ _ _ (Rabs_triang _ _) _). lra. }
    assert (T2 : Rabs (q'' - q) <= (1 + eps) * B + eps * Rabs q).
    { replace (q'' - q) with ((q'' - q') + (q' - q)) by ring. refine (Rle_trans _ _ _ (Rabs_triang _ _) _). assert (K := Rmult_le_compat_l _ _ _ e0 T1). lra. }
    assert (T3 : Rabs (whole + q'') <= Rabs (q'' - q) + Rabs (whole + q)). { replace (whole + q'') with ((q'' - q) + (whole + q)) by ring. apply Rabs_triang. }
    assert (K := Rmult_le_compat_l _ _ _ e0 T3). assert (K2 := Rmult_le_compat_l (1 + eps) _ _ ltac:(lra) T2).
    replace (- s'' - - (whole + q)) with (- ((s'' - (whole + q'')) + (q'' - q))) by ring. rewrite Rabs_Ropp. refine (Rle_trans _ _ _ (Rabs_triang _ _) _).
    replace ((1 + eps) ^ 2 * B + (1 + eps) * eps * Rabs q) with ((1 + eps) * ((1 + eps) * B + eps * Rabs q)) by ring. lra. }
  replace (IZR xm - ccen nx) with (- IZR dx - half_if_odd nx) by (unfold xm; rewrite ccen_val, minus_IZR; unfold half_if_odd; ring).
  replace (IZR ym - ccen ny) with (- IZR dy - half_if_odd ny) by (unfold ym; rewrite ccen_val, minus_IZR; unfold half_if_odd; ring).
  destruct (XE (- IZR dx - half_if_odd nx) _ _ (proj1 (proj2 NX1))) as [x' [Ex Bx']]. destruct (XE (- IZR dy - half_if_odd ny) _ _ (proj1 (proj2 NY1))) as [y' [Ey By']].
  rewrite Ex, Ey.
  (* exact arithmetic *)
  assert (D0 : det <> 0). { intros Z0. rewrite Z0, Rabs_R0 in HD. assert (0 <= ed); [|lra]. refine (Rle_trans _ _ _ (Rabs_pos _) DE). }
  assert (ER0 : 0 <= err) by (refine (Rle_trans _ _ _ (Rabs_pos _) (RD ym xm ltac:(lia) ltac:(lia)))).
  assert (BR : best_roll ny nx f g dy dx).
  { intros s t Q. specialize (HB s t Q). unfold c in HB. rewrite !Z.add_0_r in HB. apply (Rmult_lt_reg_r (/ IZR (ny * nx))); [apply Rinv_0_lt_compat; auto|]. unfold Rdiv in HB. lra. }
  assert (CN : ccf ny nx f g dy dx <> 0).
  { intros Z0. unfold c in HC. rewrite !Z.add_0_r, Z0 in HC. unfold Rdiv in HC. rewrite Rmult_0_l, Rabs_R0 in HC. lra. }
  assert (X := xcorr_interior e agpy im1 im2 er1 er2 false zm nt np huge ny nx dy dx H1 H2 Hh He1 He2 Iy Ix BR CN).
  change (cross_correlation_shifts e agpy im1 im2 er1 er2 None false false zm BWrap nt np huge =
    Ok [xnegadd (- IZR dx - half_if_odd nx) (xdiv (XF (hx * gx - gy * m)) (XF det));
        xnegadd (- IZR dy - half_if_odd ny) (xdiv (XF (hy * gy - gx * m)) (XF det))]) in X.
  rewrite !(xdiv_ok _ det D0) in X. cbn [xnegadd] in X.
  exists (- (- IZR dx - half_if_odd nx + (hx * gx - gy * m) / det)), (- (- IZR dy - half_if_odd ny + (hy * gy - gx * m) / det)), x', y'.
  split; [exact X|]. split; [reflexivity|]. split; [ring|]. split; [ring|]. split; [exact Bx'|exact By'].
Qed.
Print Assumptions C120_cross_correlation_shifts.
