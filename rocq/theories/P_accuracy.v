(** C116: sub-pixel shifts that need not lie on the grid, with noise *)
From Coq Require Import ZArith Lia List Reals Lra Bool.
From Coquelicot Require Import Complex.
From Verif Require Import Base NDim DFT Kernel Num Py Sum2 M_fast_ffts M_shift M_scale M_zoom M_upsample M_convolve M_correlate Arg M_chi2
  Spec L_shift L_scale L_upsample L_convolve Spec2 Spec3 Spec4 L_correlate L_chi2 L_zoom L_register L_register2
  L_chi2shift L_fshift P_shift P_chi2map P_chi2errors P_chi2shift P_chi2shift2 P_rounding L_iterzoom2 L_accuracy.
Import ListNotations.
Open Scope R_scope.

(** 2-norm of an image *)
Definition norm2 (ny nx : Z) (f : Z -> Z -> R) : R := sqrt (pixel_sum ny nx (fun i j => f i j ^ 2)).
(** 2-norm of the difference between f2 and f1 Fourier-shifted by (ty, tx) *)
Definition mismatch (ny nx : Z) (f1 f2 : Z -> Z -> R) (ty tx : R) : R :=
  sqrt (pixel_sum ny nx (fun i j => Cmod (Cminus (RtoC (f2 i j)) (cshift ny nx f1 ty tx i j)) ^ 2)).
(** t, up to whole periods, lies at most half a step beyond the first and the last node of the final grid *)
Definition in_window (n m s : Z) (u t : R) : Prop :=
  exists k : Z, grid_shift n m s u (s - 1) - 1 / (2 * u) <= t + IZR k * IZR n <= grid_shift n m s u 0 + 1 / (2 * u).

Lemma near_node n m s u t : (0 < s)%Z -> 0 < u -> in_window n m s u t ->
  exists i (k : Z), (0 <= i < s)%Z /\ Rabs (t + IZR k * IZR n - grid_shift n m s u i) <= 1 / (2 * u).
Proof.
  intros Hs Hu [k [A B]]. set (t' := t + IZR k * IZR n) in *. set (g0 := grid_shift n m s u 0) in *.
  assert (G : forall i, grid_shift n m s u i = g0 - IZR i / u) by (intros i; unfold g0, grid_shift; field; lra).
  rewrite G in A. set (w := (g0 - t') * u).
  assert (U1 : 1 / (2 * u) * u = 1 / 2) by (field; lra).
  assert (W1 : - (1 / 2) <= w).
  { assert (Q := Rmult_le_compat_r u _ _ ltac:(lra) B). unfold w. rewrite Rmult_plus_distr_r, U1 in Q. lra. }
  assert (W2 : w <= IZR (s - 1) + 1 / 2).
  { assert (Q := Rmult_le_compat_r u _ _ ltac:(lra) A). rewrite Rmult_minus_distr_r, U1 in Q. unfold w.
    replace ((g0 - IZR (s - 1) / u) * u) with (g0 * u - IZR (s - 1)) in Q by (field; lra). lra. }
  assert (E : forall i, Rabs (w - IZR i) <= 1 / 2 -> Rabs (t' - grid_shift n m s u i) <= 1 / (2 * u)).
  { intros i Hi. rewrite G. replace (t' - (g0 - IZR i / u)) with (- ((w - IZR i) * / u)) by (unfold w; field; lra).
    rewrite Rabs_Ropp, Rabs_mult, (Rabs_right (/ u)) by (left; apply Rinv_0_lt_compat; auto).
    replace (1 / (2 * u)) with (1 / 2 * / u) by (field; lra). apply Rmult_le_compat_r; [left; apply Rinv_0_lt_compat; auto|auto]. }
  assert (AR := archimed (w - 1 / 2)). set (z := up (w - 1 / 2)) in *. destruct AR as [R1 R2].
  destruct (Z_lt_le_dec z 0) as [Z0|Z0].
  { exists 0%Z, k. split; [lia|]. apply E. assert (IZR z <= -1) by (apply IZR_le; lia). apply Rabs_le. lra. }
  destruct (Z_lt_le_dec z s) as [Z1|Z1].
  { exists z, k. split; [lia|]. apply E. apply Rabs_le. lra. }
  exists (s - 1)%Z, k. split; [lia|]. apply E. assert (IZR s <= IZR z) by (apply IZR_le; lia). rewrite minus_IZR in *. apply Rabs_le. lra.
Qed.

Section Two.
  Variables ny nx : Z.
  Hypotheses (Hy : (0 < ny)%Z) (Hx : (0 < nx)%Z).
  Let Hp : pos_shape [ny; nx]. Proof. apply pos2; auto. Qed.
  Let C2 (f : Z -> Z -> R) : list Z -> C := fun y => RtoC (img2 f y).
  Lemma norm2_l2 f : norm2 ny nx f = l2 [ny; nx] (C2 f).
  Proof. unfold norm2, l2, l2sq. rewrite sum2_sumNR. f_equal. apply sum2_ext. intros i j _ _. unfold C2. cbn [img2]. rewrite Cmod_R, pow2_abs. reflexivity. Qed.
  Lemma mismatch_l2 f1 f2 ty tx : mismatch ny nx f1 f2 ty tx = l2 [ny; nx] (fun y => Cminus (C2 f2 y) (shifted [ny; nx] (C2 f1) [ty; tx] 0 y)).
  Proof. unfold mismatch, l2, l2sq. rewrite sum2_sumNR. f_equal. apply sum2_ext. intros i j _ _. unfold C2 at 2. rewrite cshift_shifted by auto. reflexivity. Qed.
  Lemma mismatch_sq f1 f2 ty tx s : s <> 0 -> 
    chi2c ny nx f1 f2 s ty tx + (sum2 ny nx (fun i j => f1 i j ^ 2) - sum2 ny nx (fun i j => fshift ny nx f1 ty tx i j ^ 2)) / s ^ 2 = (mismatch ny nx f1 f2 ty tx / s) ^ 2.
  Proof.
    intros Hs. unfold Rdiv at 2. rewrite Rpow_mult_distr. unfold mismatch. rewrite pow2_sqrt by (apply sum2_nonneg; intros; apply pow2_ge_0).
    assert (E : sum2 ny nx (fun i j => f1 i j ^ 2) = sum2 ny nx (fun i j => Cmod (cshift ny nx f1 ty tx i j) ^ 2)).
    { assert (E := shifted_energy [ny; nx] (C2 f1) [ty; tx] 0 Hp eq_refl). rewrite !sum2_sumNR in E. 
      rewrite (sum2_ext ny nx (fun i j => f1 i j ^ 2) (fun i j => Cmod (C2 f1 [i; j]) ^ 2)) by (intros; unfold C2; cbn [img2]; rewrite Cmod_R, pow2_abs; reflexivity).
      rewrite <- E. apply sum2_ext. intros i j _ _. unfold C2. rewrite cshift_shifted by auto. reflexivity. }
    rewrite E. unfold chi2c. change (pixel_sum ny nx) with (sum2 ny nx).
    rewrite (sum2_ext ny nx (fun i j => ((f2 i j - fshift ny nx f1 ty tx i j) / s) ^ 2) (fun i j => (/ s) ^ 2 * (f2 i j - fshift ny nx f1 ty tx i j) ^ 2)) by (intros; unfold Rdiv; ring).
    rewrite sum2_scal. rewrite (sum2_ext ny nx (fun i j => Cmod (Cminus _ _) ^ 2)
       (fun i j => (f2 i j - fshift ny nx f1 ty tx i j) ^ 2 + (Cmod (cshift ny nx f1 ty tx i j) ^ 2 + -1 * fshift ny nx f1 ty tx i j ^ 2))).
    - rewrite !sum2_plus, sum2_scal. unfold Rdiv. rewrite <- pow_inv. ring.
    - intros i j _ _. rewrite fshift_shifted, cshift_shifted by auto. destruct (cshift ny nx f1 ty tx i j) as [a b]. unfold Cmod, Re.
      rewrite !pow2_sqrt by (cbn; assert (Q1 := pow2_ge_0 (f2 i j + - a)); assert (Q2 := pow2_ge_0 (0 + - b)); assert (Q3 := pow2_ge_0 a); assert (Q4 := pow2_ge_0 b); cbn in *; lra).
      cbn. ring.
  Qed.
  Lemma mismatch_odd f1 f2 ty tx : Z.odd ny = true -> Z.odd nx = true ->
    mismatch ny nx f1 f2 ty tx = norm2 ny nx (fun i j => f2 i j - fshift ny nx f1 ty tx i j).
  Proof.
    intros Oy Ox. assert (E := mismatch_sq f1 f2 ty tx 1 ltac:(lra)). rewrite (proj2 (fshift_energy ny nx f1 ty tx Hy Hx) Oy Ox) in E.
    unfold norm2. rewrite <- (sqrt_pow2 (mismatch ny nx f1 f2 ty tx)) by apply sqrt_pos. f_equal. unfold chi2c in E. rewrite Rminus_eq_0 in E. unfold Rdiv in E at 2. rewrite Rmult_0_l, Rplus_0_r in E.
    replace (mismatch ny nx f1 f2 ty tx / 1) with (mismatch ny nx f1 f2 ty tx) in E by field. rewrite <- E. apply sum2_ext. intros. f_equal. field.
  Qed.
  Lemma phase_bound k l t t' h : (0 <= k < ny)%Z -> (0 <= l < nx)%Z -> 0 <= h ->
    Rabs (fst t - fst t') <= h -> Rabs (snd t - snd t') <= h -> 2 * PI * Rabs (fdot [ny; nx] [k; l] [fst t; snd t] - fdot [ny; nx] [k; l] [fst t'; snd t']) <= 2 * PI * h.
  Proof.
    intros Hk Hl Hh A B. apply Rmult_le_compat_l; [assert (Q := PI_RGT_0); lra|]. cbn [fdot].
    replace (_ - _) with (fftfreq ny k * (fst t - fst t') + fftfreq nx l * (snd t - snd t')) by ring.
    refine (Rle_trans _ _ _ (Rabs_triang _ _) _). rewrite !Rabs_mult.
    assert (F1 := freq_half ny k Hy Hk). assert (F2 := freq_half nx l Hx Hl).
    assert (G1 : Rabs (fftfreq ny k) * Rabs (fst t - fst t') <= 1 / 2 * h) by (apply Rmult_le_compat; auto using Rabs_pos).
    assert (G2 : Rabs (fftfreq nx l) * Rabs (snd t - snd t') <= 1 / 2 * h) by (apply Rmult_le_compat; auto using Rabs_pos). lra.
  Qed.
  Lemma mismatch_near f1 f2 ty tx sy sx h : 0 <= h -> Rabs (ty - sy) <= h -> Rabs (tx - sx) <= h ->
    mismatch ny nx f1 f2 ty tx <= mismatch ny nx f1 f2 sy sx + 2 * PI * h * norm2 ny nx f1.
  Proof.
    intros Hh A B. rewrite !mismatch_l2, norm2_l2. refine (Rle_trans _ _ _ (l2_triangle _ _ (shifted [ny; nx] (C2 f1) [sy; sx] 0) _) _). apply Rplus_le_compat_l.
    rewrite l2_sym. apply shift_lipschitz; auto; [assert (Q := PI_RGT_0); apply Rmult_le_pos; lra|].
    intros k Hk. apply inb2 in Hk. destruct Hk as [a [b [-> [Ha Hb]]]]. apply (phase_bound a b (ty, tx) (sy, sx) h); auto.
  Qed.
  Lemma mismatch_period f1 f2 ty tx (k l : Z) : mismatch ny nx f1 f2 (ty + IZR k * IZR ny) (tx + IZR l * IZR nx) = mismatch ny nx f1 f2 ty tx.
  Proof.
    rewrite !mismatch_l2. apply l2_ext. intros y Hin. f_equal. rewrite <- (shifted_period [ny; nx] (C2 f1) [ty; tx] 0 [k; l] y Hp eq_refl eq_refl Hin). cbn. f_equal. f_equal; [|f_equal]; ring.
  Qed.
  Lemma mismatch_identify f1 f2 ty tx sy sx k l : (0 <= k < ny)%Z -> (0 <= l < nx)%Z ->
    2 * Rabs (sin (PI * (fftfreq ny k * (ty - sy) + fftfreq nx l * (tx - sx)))) * Cmod (dft [ny; nx] (fun y => RtoC (img2 f1 y)) [k; l]) <=
    sqrt (IZR (ny * nx)) * (mismatch ny nx f1 f2 ty tx + mismatch ny nx f1 f2 sy sx).
  Proof.
    intros Hk Hl. assert (E := shift_identify [ny; nx] Hp (C2 f1) [ty; tx] [sy; sx] [k; l] eq_refl eq_refl (inb2_intro ny nx k l Hk Hl)).
    replace (prodZ [ny; nx]) with (ny * nx)%Z in E by (cbn; lia). cbn [fdot] in E.
    replace (fftfreq ny k * ty + (fftfreq nx l * tx + 0) - (fftfreq ny k * sy + (fftfreq nx l * sx + 0))) with (fftfreq ny k * (ty - sy) + fftfreq nx l * (tx - sx)) in E by ring.
    refine (Rle_trans _ _ _ E _). apply Rmult_le_compat_l; [apply sqrt_pos|]. rewrite !mismatch_l2.
    refine (Rle_trans _ _ _ (l2_triangle _ _ (C2 f2) _) _). rewrite l2_sym. lra.
  Qed.
End Two.

Theorem C116_mismatch :
  forall ny nx f1 f2 ty tx, (0 < ny)%Z -> (0 < nx)%Z ->
  norm2 ny nx (fun i j => f2 i j - fshift ny nx f1 ty tx i j) <= mismatch ny nx f1 f2 ty tx /\
  (Z.odd ny = true -> Z.odd nx = true -> mismatch ny nx f1 f2 ty tx = norm2 ny nx (fun i j => f2 i j - fshift ny nx f1 ty tx i j)).
Proof.
  intros ny nx f1 f2 ty tx Hy Hx. split; [|intros; apply mismatch_odd; auto]. unfold norm2, mismatch. apply sqrt_le_1_alt. apply sum2_le. intros i j _ _.
  rewrite fshift_shifted, cshift_shifted by auto. destruct (cshift ny nx f1 ty tx i j) as [a b]. unfold Cmod, Re.
  rewrite pow2_sqrt by (cbn; assert (Q1 := pow2_ge_0 (f2 i j + - a)); assert (Q2 := pow2_ge_0 (0 + - b)); cbn in *; lra).
  cbn. assert (Q2 := pow2_ge_0 b). cbn in Q2. lra.
Qed.
Print Assumptions C116_mismatch.

Theorem C116_chi2_shift :
  forall e im1 im2 err s us nthreads use_np zeromean nfitted ret_err ret_arr mas mns allow_huge ny nx t,
  shape im1 = [ny; nx] -> shape im2 = [ny; nx] -> (0 < ny)%Z -> (0 < nx)%Z -> size_ok e allow_huge ny nx ->
  (err = ErrNone /\ s = 1 \/ err = ErrScalar s /\ s <> 0) -> grid_given us ny nx mas -> one_sigma e t ->
  let f1 := prep zeromean im1 ny nx in let f2 := prep zeromean im2 ny nx in
  exists map0 t1 t2 t3 ym xm u s1 s2 x y rest,
    chi2n_map e im1 im2 err BWrap nthreads zeromean use_np true false allow_huge = Ok (Chi2All map0 t1 t2 t3) /\
    is_argmin2 ny nx (g2 map0) (ym, xm) /\ final_grid e us ny nx map0 ym xm mas mns nfitted u s1 s2 /\
    chi2_shift e im1 im2 err us BWrap nthreads use_np zeromean nfitted false ret_err ret_arr mas mns allow_huge = Ok (RNum x :: RNum y :: rest) /\
    forall ty tx, in_window ny ym s1 u ty -> in_window nx xm s2 u tx ->
      (* the mismatch of the returned offset *)
      mismatch ny nx f1 f2 y x <= mismatch ny nx f1 f2 ty tx + PI / u * norm2 ny nx f1 /\
      (* the error of the returned offset *)
      forall k l, (0 <= k < ny)%Z -> (0 <= l < nx)%Z ->
        2 * Rabs (sin (PI * (fftfreq ny k * (y - ty) + fftfreq nx l * (x - tx)))) * Cmod (dft [ny; nx] (fun p => RtoC (img2 f1 p)) [k; l]) <=
        sqrt (IZR (ny * nx)) * (2 * mismatch ny nx f1 f2 ty tx + PI / u * norm2 ny nx f1).
Proof.
  intros e im1 im2 err s us nt np zm nf re rc mas mns huge ny nx t H1 H2 Hy Hx Hh Hs Hg Ht f1 f2.
  assert (He : err_ok err ny nx) by (destruct Hs as [[-> _]|[-> N]]; cbn; auto).
  assert (s0 : s <> 0) by (destruct Hs as [[_ ->]|[_ ?]]; [lra|auto]).
  destruct (C43_full_result e im1 im2 err us nt np zm nf re rc mas mns huge ny nx t H1 H2 Hy Hx He Hh Hg Ht)
    as [c [t1 [t2 [t3 [ym [xm [u [s1 [s2 [xv [yv [ups [i [j [xlo [xhi [ylo [yhi [F1 [F2 [F3 [F4 [F5 [F6 [F7 [F8 [F9 F10]]]]]]]]]]]]]]]]]]]]]]]]]]].
  exists c, t1, t2, t3, ym, xm, u, s1, s2, (grid_shift nx xm s2 u j), (grid_shift ny ym s1 u i). eexists. split; [exact F1|]. split; [exact F2|]. split; [exact F3|]. split; [exact F10|].
  assert (Hw : 0 < u /\ (0 < s1)%Z /\ (0 < s2)%Z).
  { destruct us as [|k|r].
    - destruct F3 as [-> [-> [size [_ [-> _]]]]]. cbn [grid_given] in Hg. split; [refine (Rlt_le_trans _ _ _ Rlt_0_1 (Rmax_l _ _))|lia].
    - destruct (explicit_window_ok e (UInt k) ny nx u s1 s2 (g2 c) mas mns nf Hy Hx F3) as [_ Q]. exact Q.
    - destruct (explicit_window_ok e (UFloat r) ny nx u s1 s2 (g2 c) mas mns nf Hy Hx F3) as [_ Q]. exact Q. }
  destruct Hw as [U0 [P1 P2]].
  intros ty tx Wy Wx. destruct (near_node _ _ _ _ _ P1 U0 Wy) as [a [k [Ha Na]]]. destruct (near_node _ _ _ _ _ P2 U0 Wx) as [b [l [Hb Nb]]].
  assert (M : forall sy sx, chi2_at ny nx c sy sx = (mismatch ny nx f1 f2 sy sx / s) ^ 2).
  { intros sy sx. rewrite <- mismatch_sq by auto.
    destruct (C34_scalar_error e im1 im2 err s nt zm np true huge ny nx H1 H2 Hy Hx Hh Hs) as [r [Er [Sr Vr]]].
    rewrite F1 in Er. injection Er as <-. cbn [chi2_of_res] in Sr, Vr. unfold chi2_at.
    rewrite (tiR_ext _ _ (img2 (fun k l => chi2_of ny nx f1 f2 (fun _ _ => s) ((ny - 1) / 2 - k) ((nx - 1) / 2 - l)))).
    2:{ intros q Hin. apply inb2' in Hin. destruct Hin as [v [w [-> [Hv Hw]]]]. cbn [img2]. unfold f1, f2. rewrite <- Vr by auto. reflexivity. }
    rewrite interp_chi2 by auto.
    replace (IZR ((ny - 1) / 2) - (IZR ((ny - 1) / 2) - sy)) with sy by ring.
    replace (IZR ((nx - 1) / 2) - (IZR ((nx - 1) / 2) - sx)) with sx by ring. reflexivity. }
  set (y := grid_shift ny ym s1 u i). set (x := grid_shift nx xm s2 u j). set (y' := grid_shift ny ym s1 u a) in *. set (x' := grid_shift nx xm s2 u b) in *.
  assert (A : mismatch ny nx f1 f2 y x <= mismatch ny nx f1 f2 y' x').
  { destruct F8 as [A1 [A2 [A3 _]]]. cbn [fst snd] in *. specialize (A3 a b Ha Hb). destruct (F7 a b Ha Hb) as [_ [_ V1]]. destruct (F7 i j A1 A2) as [_ [_ V2]].
    rewrite V1, V2 in A3. fold y x y' x' in A3. rewrite !M in A3. unfold Rdiv in A3. rewrite !Rpow_mult_distr in A3.
    assert (S2 : 0 < (/ s) ^ 2) by (assert (Q := Rsqr_pos_lt (/ s) ltac:(apply Rinv_neq_0_compat; auto)); unfold Rsqr in Q; cbn; lra).
    apply (Rmult_le_reg_r _ _ _ S2) in A3. apply (Rsqr_incr_0_var); [unfold Rsqr; cbn in A3; lra|apply sqrt_pos]. }
  assert (B : mismatch ny nx f1 f2 y' x' <= mismatch ny nx f1 f2 ty tx + PI / u * norm2 ny nx f1).
  { rewrite <- (mismatch_period ny nx Hy Hx f1 f2 ty tx k l). replace (PI / u) with (2 * PI * (1 / (2 * u))) by (field; lra).
    apply mismatch_near; auto; try (rewrite Rabs_minus_sym; auto). left. apply Rmult_lt_0_compat; [lra|apply Rinv_0_lt_compat; lra]. }
  split; [lra|]. intros ky kx Hky Hkx. refine (Rle_trans _ _ _ (mismatch_identify ny nx Hy Hx f1 f2 y x ty tx ky kx Hky Hkx) _).
  apply Rmult_le_compat_l; [apply sqrt_pos|lra].
Qed.
Print Assumptions C116_chi2_shift.

(** the error along each axis, from the two lowest frequencies of the image *)
Theorem C116_offset_error :
  forall e im1 im2 err s us nthreads use_np zeromean nfitted ret_err ret_arr mas mns allow_huge ny nx t,
  shape im1 = [ny; nx] -> shape im2 = [ny; nx] -> (3 <= ny)%Z -> (3 <= nx)%Z -> size_ok e allow_huge ny nx ->
  (err = ErrNone /\ s = 1 \/ err = ErrScalar s /\ s <> 0) -> grid_given us ny nx mas -> one_sigma e t ->
  let f1 := prep zeromean im1 ny nx in let f2 := prep zeromean im2 ny nx in
  exists map0 t1 t2 t3 ym xm u s1 s2 x y rest,
    chi2n_map e im1 im2 err BWrap nthreads zeromean use_np true false allow_huge = Ok (Chi2All map0 t1 t2 t3) /\
    is_argmin2 ny nx (g2 map0) (ym, xm) /\ final_grid e us ny nx map0 ym xm mas mns nfitted u s1 s2 /\
    chi2_shift e im1 im2 err us BWrap nthreads use_np zeromean nfitted false ret_err ret_arr mas mns allow_huge = Ok (RNum x :: RNum y :: rest) /\
    forall ty tx, in_window ny ym s1 u ty -> in_window nx xm s2 u tx ->
      2 * Rabs (sin (PI * (y - ty) / IZR ny)) * Cmod (sumC ny (fun i => sumC nx (fun j => Cmult (RtoC (f1 i j)) (cis (- (2 * PI * (IZR i / IZR ny))))))) <=
        sqrt (IZR (ny * nx)) * (2 * mismatch ny nx f1 f2 ty tx + PI / u * norm2 ny nx f1) /\
      2 * Rabs (sin (PI * (x - tx) / IZR nx)) * Cmod (sumC ny (fun i => sumC nx (fun j => Cmult (RtoC (f1 i j)) (cis (- (2 * PI * (IZR j / IZR nx))))))) <=
        sqrt (IZR (ny * nx)) * (2 * mismatch ny nx f1 f2 ty tx + PI / u * norm2 ny nx f1).
Proof.
  intros e im1 im2 err s us nt np zm nf re rc mas mns huge ny nx t H1 H2 Hy Hx Hh Hs Hg Ht f1 f2.
  destruct (C116_chi2_shift e im1 im2 err s us nt np zm nf re rc mas mns huge ny nx t H1 H2 ltac:(lia) ltac:(lia) Hh Hs Hg Ht)
    as [c [t1 [t2 [t3 [ym [xm [u [s1 [s2 [x [y [rest [F1 [F2 [F3 [F4 F5]]]]]]]]]]]]]]]].
  exists c, t1, t2, t3, ym, xm, u, s1, s2, x, y, rest. repeat (split; [assumption|]). intros ty tx Wy Wx. destruct (F5 ty tx Wy Wx) as [_ K]. fold f1 f2 in K.
  assert (f0 : forall n, (3 <= n)%Z -> fftfreq n 0 = 0).
  { intros n Hn. unfold fftfreq, fidx. destruct (Z.leb_spec 0 ((n - 1) / 2)); [unfold Rdiv; ring|exfalso; Z.to_euclidean_division_equations; lia]. }
  assert (f1' : forall n, (3 <= n)%Z -> fftfreq n 1 = 1 / IZR n).
  { intros n Hn. unfold fftfreq, fidx. destruct (Z.leb_spec 1 ((n - 1) / 2)); [reflexivity|exfalso; Z.to_euclidean_division_equations; lia]. }
  split.
  - specialize (K 1%Z 0%Z ltac:(lia) ltac:(lia)). rewrite f0, f1' in K by auto.
    replace (PI * (1 / IZR ny * (y - ty) + 0 * (x - tx))) with (PI * (y - ty) / IZR ny) in K by (unfold Rdiv; ring).
    replace (sumC ny _) with (dft [ny; nx] (fun p => RtoC (img2 f1 p)) [1%Z; 0%Z]); [exact K|].
    unfold dft. rewrite sumNC_cons. apply sumC_ext. intros i HI. rewrite sumNC_cons. apply sumC_ext. intros j HJ. rewrite sumNC_nil. cbn [img2]. f_equal. f_equal. cbn [phZ]. unfold Rdiv. ring.
  - specialize (K 0%Z 1%Z ltac:(lia) ltac:(lia)). rewrite f0, f1' in K by auto.
    replace (PI * (0 * (y - ty) + 1 / IZR nx * (x - tx))) with (PI * (x - tx) / IZR nx) in K by (unfold Rdiv; ring).
    replace (sumC ny _) with (dft [ny; nx] (fun p => RtoC (img2 f1 p)) [0%Z; 1%Z]); [exact K|].
    unfold dft. rewrite sumNC_cons. apply sumC_ext. intros i HI. rewrite sumNC_cons. apply sumC_ext. intros j HJ. rewrite sumNC_nil. cbn [img2]. f_equal. f_equal. cbn [phZ]. unfold Rdiv. ring.
Qed.
Print Assumptions C116_offset_error.

(** the README recipe: shifting the second image back by the offset found *)
Theorem C116_corrected :
  forall e im1 im2 err s us nthreads use_np nfitted ret_err ret_arr mas mns allow_huge ny nx t nth' np',
  shape im1 = [ny; nx] -> shape im2 = [ny; nx] -> (0 < ny)%Z -> (0 < nx)%Z -> size_ok e allow_huge ny nx ->
  (err = ErrNone /\ s = 1 \/ err = ErrScalar s /\ s <> 0) -> grid_given us ny nx mas -> one_sigma e t ->
  exists map0 t1 t2 t3 ym xm u s1 s2 x y rest out,
    chi2n_map e im1 im2 err BWrap nthreads false use_np true false allow_huge = Ok (Chi2All map0 t1 t2 t3) /\
    is_argmin2 ny nx (g2 map0) (ym, xm) /\ final_grid e us ny nx map0 ym xm mas mns nfitted u s1 s2 /\
    chi2_shift e im1 im2 err us BWrap nthreads use_np false nfitted false ret_err ret_arr mas mns allow_huge = Ok (RNum x :: RNum y :: rest) /\
    shift2d (e_fftw e) (of_num im2) (- x) (- y) 0 nth' np' false true = Ok (RealArr out) /\ shape out = [ny; nx] /\
    norm2 ny nx (fun i j => get out [i; j] - px im1 i j) <= mismatch ny nx (px im1) (px im2) y x /\
    forall ty tx, in_window ny ym s1 u ty -> in_window nx xm s2 u tx ->
      norm2 ny nx (fun i j => get out [i; j] - px im1 i j) <= mismatch ny nx (px im1) (px im2) ty tx + PI / u * norm2 ny nx (px im1).
Proof.
  intros e im1 im2 err s us nt np nf re rc mas mns huge ny nx t nt' np' H1 H2 Hy Hx Hh Hs Hg Ht.
  destruct (C116_chi2_shift e im1 im2 err s us nt np false nf re rc mas mns huge ny nx t H1 H2 Hy Hx Hh Hs Hg Ht)
    as [c [t1 [t2 [t3 [ym [xm [u [s1 [s2 [x [y [rest [F1 [F2 [F3 [F4 F5]]]]]]]]]]]]]]]].
  change (prep false im1 ny nx) with (px im1) in F5. change (prep false im2 ny nx) with (px im2) in F5.
  assert (Hp : pos_shape [ny; nx]) by (apply pos2; auto).
  destruct (shiftnd_ok (e_fftw e) (of_num im2) [- y; - x] 0 nt' np' false true) as [r [R1 [R2 R3]]]; [cbn [of_num amap shape]; rewrite H2; auto|].
  cbn [of_num amap shape] in R2, R3. rewrite H2 in R2, R3. rewrite fit_offset_id in R3 by reflexivity.
  assert (C7 := C07_shift2d_is_shiftnd (e_fftw e) (of_num im2) ny nx (- x) (- y) 0 nt' np' false true H2). rewrite R1 in C7. unfold same_result in C7.
  destruct (shift2d _ _ _ _ _ _ _ _ _) as [out|] eqn:ES; [|contradiction]. cbn [pick] in C7. destruct out as [out|]; [|contradiction]. destruct C7 as [C7s C7g].
  cbn [amap shape] in C7s. rewrite R2 in C7s. rewrite C7s in C7g.
  exists c, t1, t2, t3, ym, xm, u, s1, s2, x, y, rest, out. do 4 (split; [assumption|]).
  assert (E : norm2 ny nx (fun i j => get out [i; j] - px im1 i j) <= mismatch ny nx (px im1) (px im2) y x).
  { rewrite mismatch_l2 by auto. rewrite <- (shift_back [ny; nx] Hp (fun p => RtoC (img2 (px im1) p)) (fun p => RtoC (img2 (px im2) p)) [y; x] eq_refl).
    unfold norm2, l2, l2sq. rewrite sum2_sumNR. apply sqrt_le_1_alt. apply sum2_le. intros i j Hi Hj. rewrite C7g by (apply inb2_intro; auto). cbn [amap get img2 map].
    rewrite R3 by (apply inb2_intro; auto).
    rewrite (shifted_ext [ny; nx] _ (fun p => RtoC (img2 (px im2) p)) [- y; - x] 0).
    2:{ intros p Hin. apply inb2 in Hin. destruct Hin as [v [w [-> [Hv Hw]]]]. unfold cnan0. cbn. unfold px, nan0. destruct (get im2 [v; w]); reflexivity. }
    set (z := shifted _ _ _ _ _). destruct z as [a b]. unfold Cmod, Re. cbn [fst snd Cminus Cplus Copp RtoC].
    rewrite pow2_sqrt by (assert (Q1 := pow2_ge_0 (a + - px im1 i j)); assert (Q2 := pow2_ge_0 (b + - 0)); lra). assert (Q2 := pow2_ge_0 (b + - 0)). unfold Rminus. lra. }
  split; [exact ES|]. split; [exact C7s|]. split; [exact E|].
  intros ty tx Wy Wx. destruct (F5 ty tx Wy Wx) as [K _]. lra.
Qed.
Print Assumptions C116_corrected.

Example C116_nonvacuous : shape delta5 = [5; 5]%Z /\ shape delta5r = [5; 5]%Z /\ grid_given (UInt 3) 5 5 512 /\ final_grid (Env false (2 ^ 30) false (fun _ _ => NaN)) (UInt 3) 5 5 (mk2 5 5 (fun _ _ => 0)) 4 4 512 (11/10) 2 3 5 5 /\
  one_sigma (Env false (2 ^ 30) false (fun _ _ => NaN)) (159358435 / 100000000) /\ size_ok (Env false (2 ^ 30) false (fun _ _ => NaN)) false 5 5 /\
  (* the coarse minimum of C38_nonvacuous; the window covers true shifts at most 5/6 of a pixel from it, up to whole periods *)
  in_window 5 4 5 3 (-2) /\ in_window 5 4 5 3 (13 / 4) /\ in_window 5 4 5 3 (- (11 / 5)) /\ ~ in_window 5 4 5 3 0 /\
  mismatch 5 5 (px delta5) (px delta5) 0 0 = 0 /\ 0 < norm2 5 5 (px delta5).
Proof.
  assert (G : grid_shift 5 4 5 3 0 = - (4 / 3) /\ grid_shift 5 4 5 3 (5 - 1) = - (8 / 3)) by (unfold grid_shift; cbn; split; lra). destruct G as [G0 G1].
  split; [reflexivity|]. split; [reflexivity|]. split; [exists 3, 5%Z, 5%Z; simpl; repeat split; lia|]. split; [simpl; repeat split; lia|].
  split; [split; [lra|reflexivity]|]. split; [right; simpl; lia|].
  split; [exists 0%Z; rewrite G0, G1; lra|]. split; [exists (-1)%Z; rewrite G0, G1; lra|]. split; [exists 0%Z; rewrite G0, G1; lra|].
  split.
  { intros [k [A B]]. rewrite G0 in B. rewrite G1 in A. assert (IZR (-1) < IZR k) by lra. assert (IZR k < IZR 0) by lra. apply lt_IZR in H, H0. lia. }
  split.
  - rewrite mismatch_odd by (reflexivity || lia). unfold norm2. match goal with |- sqrt ?X = 0 => replace X with 0; [apply sqrt_0|] end. symmetry. apply sum2_const0. intros i j Hi Hj. cbv beta.
    replace (fshift 5 5 (px delta5) 0 0 i j) with (px delta5 i j); [ring|].
    rewrite fshift_shifted by lia. change [0; 0] with (map (fun _ : Z => 0) [5; 5]%Z). rewrite shifted_zero; [reflexivity|apply pos2; lia|apply inb2_intro; lia].
  - apply sqrt_lt_R0. unfold pixel_sum. rewrite (sumR_single 5 _ 1%Z); [|lia|]. rewrite (sumR_single 5 _ 3%Z); [unfold px, delta5; cbn; lra|lia|].
    + intros j Hj N. unfold px, delta5, mk2; cbn [get]. destruct (Z.eqb_spec j 3); [contradiction|]. rewrite andb_false_r. cbn; ring.
    + intros i Hi N. apply sumR_const0. intros j Hj. unfold px, delta5, mk2; cbn [get]. destruct (Z.eqb_spec i 1); [contradiction|]. cbn; ring.
Qed.
