(** C119: when the coarse search finds the right neighbourhood *)
From Coq Require Import ZArith Lia List Reals Lra Bool Classical_Prop.
From Coquelicot Require Import Complex.
From Verif Require Import Base NDim DFT Kernel Num Py Sum2 M_fast_ffts M_shift M_scale M_zoom M_upsample M_convolve M_correlate Arg M_chi2
  Spec L_shift L_scale L_upsample L_convolve Spec2 Spec3 Spec4 L_correlate L_chi2 L_zoom P_xcorr P_xcorr2 P_xcorr3 M_register L_register L_register2 L_register3
  L_chi2shift L_fshift P_shift P_chi2map P_chi2errors P_chi2shift P_chi2shift2 P_register P_register2 P_register3 P_register4 P_rounding L_iterzoom2 L_accuracy P_accuracy P_accuracy2.
Import ListNotations.
Open Scope R_scope.

(** 2-norm of the difference between the image Fourier-shifted by (sy, sx) and c times the image Fourier-shifted by (ty, tx) *)
Definition self_distance (ny nx : Z) (f : Z -> Z -> R) (c : C) (sy sx ty tx : R) : R :=
  sqrt (pixel_sum ny nx (fun i j => Cmod (Cminus (cshift ny nx f sy sx i j) (Cmult c (cshift ny nx f ty tx i j))) ^ 2)).
(** a window of half-width w around whole-pixel offset p (half a pixel lower on axes of even length) reaches t, up to whole periods *)
Definition reaches (n p : Z) (w t : R) : Prop :=
  exists k : Z, Rabs (t + IZR k * IZR n - (IZR p - (if Z.even n then 1 / 2 else 0))) <= w.

Lemma reaches_window n m s u w t : 0 < u -> w <= IZR s / (2 * u) -> reaches n ((n - 1) / 2 - m) w t -> in_window n m s u t.
Proof.
  intros Hu Hw. unfold reaches, in_window. assert (E : IZR s / (2 * u) = (IZR s - 1) / 2 / u + 1 / (2 * u)) by (field; lra).
  intros [k H]; exists k; unfold grid_shift in *; rewrite ?minus_IZR in *.
  - apply Rcomplements.Rabs_le_between in H. rewrite E in Hw.
    replace ((IZR s - 1 - (IZR s - 1) / 2) / u) with ((IZR s - 1) / 2 / u) by (field; lra). replace ((0 - (IZR s - 1) / 2) / u) with (- ((IZR s - 1) / 2 / u)) by (field; lra). lra.
Qed.

Section Two.
  Variables ny nx : Z.
  Hypotheses (Hy : (0 < ny)%Z) (Hx : (0 < nx)%Z).
  Let Hp : pos_shape [ny; nx]. Proof. apply pos2; auto. Qed.
  Let C2 (f : Z -> Z -> R) : list Z -> C := fun y => RtoC (img2 f y).
  Lemma self_l2 f c sy sx ty tx : self_distance ny nx f c sy sx ty tx = l2 [ny; nx] (fun y => Cminus (shifted [ny; nx] (C2 f) [sy; sx] 0 y) (Cmult c (shifted [ny; nx] (C2 f) [ty; tx] 0 y))).
  Proof. unfold self_distance, l2, l2sq. rewrite sum2_sumNR. f_equal. apply sum2_ext. intros i j _ _. unfold C2. rewrite !cshift_shifted by auto. reflexivity. Qed.
  Lemma mismatch_up f1 f2 sy sx ty tx : mismatch ny nx f1 f2 sy sx <= mismatch ny nx f1 f2 ty tx + self_distance ny nx f1 (RtoC 1) sy sx ty tx.
  Proof.
    rewrite !mismatch_l2, self_l2 by auto. refine (Rle_trans _ _ _ (l2_triangle _ _ (shifted [ny; nx] (C2 f1) [ty; tx] 0) _) _). apply Rplus_le_compat_l. rewrite l2_sym.
    right. apply l2_ext. intros y _. unfold C2. rewrite Cmult_1_l. reflexivity.
  Qed.
  Lemma self_le f1 f2 c sy sx ty tx : Cmod c = 1 -> self_distance ny nx f1 c sy sx ty tx <= mismatch_phase ny nx f1 f2 c sy sx + mismatch ny nx f1 f2 ty tx.
  Proof.
    intros Hc. rewrite self_l2, mismatch_phase_l2, mismatch_l2 by auto.
    refine (Rle_trans _ _ _ (l2_triangle _ _ (fun y => Cmult c (C2 f2 y)) _) _). rewrite l2_sym. apply Rplus_le_compat_l.
    rewrite <- (l2_scale ny nx c (fun y => Cminus (RtoC (img2 f2 y)) (shifted [ny; nx] (fun y => RtoC (img2 f1 y)) [ty; tx] 0 y))) by auto.
    right. apply l2_ext. intros y _. unfold C2. ring.
  Qed.
  Lemma mismatch_whole f1 f2 (p q : Z) s : s <> 0 -> chi2_of ny nx f1 f2 (fun _ _ => s) p q = (mismatch ny nx f1 f2 (IZR p) (IZR q) / s) ^ 2.
  Proof.
    intros Hs. unfold mismatch, chi2_of. unfold Rdiv at 2. rewrite Rpow_mult_distr, pow2_sqrt by (apply sum2_nonneg; intros; apply pow2_ge_0).
    rewrite Rmult_comm. change (pixel_sum ny nx) with (sum2 ny nx). rewrite <- sum2_scal. apply sum2_ext. intros i j _ _. rewrite cshift_int by auto. rewrite <- RtoC_minus, Cmod_R, pow2_abs. field. auto.
  Qed.
  Lemma chi2_of_mod f1 f2 sg p q p' q' : (p mod ny = p' mod ny)%Z -> (q mod nx = q' mod nx)%Z -> chi2_of ny nx f1 f2 sg p q = chi2_of ny nx f1 f2 sg p' q'.
  Proof.
    intros A B. unfold chi2_of. apply sum2_ext. intros i j _ _.
    assert (M : forall n a b i, (a mod n = b mod n)%Z -> ((i - a) mod n = (i - b) mod n)%Z) by (intros n a b k H; rewrite (Zminus_mod k a), (Zminus_mod k b), H; reflexivity).
    rewrite (M ny p p' i A), (M nx q q' j B). reflexivity.
  Qed.
End Two.


Lemma chi2_shift_found :
  forall e im1 im2 err s us nthreads use_np zeromean nfitted ret_err ret_arr mas mns allow_huge ny nx t wy wx ty tx (p0 q0 : Z),
  shape im1 = [ny; nx] -> shape im2 = [ny; nx] -> (0 < ny)%Z -> (0 < nx)%Z -> size_ok e allow_huge ny nx ->
  (err = ErrNone /\ s = 1 \/ err = ErrScalar s /\ s <> 0) -> grid_given us ny nx mas -> one_sigma e t ->
  (forall map0 ym xm u s1 s2, final_grid e us ny nx map0 ym xm mas mns nfitted u s1 s2 -> 0 < u /\ wy <= IZR s1 / (2 * u) /\ wx <= IZR s2 / (2 * u)) ->
  let f1 := prep zeromean im1 ny nx in let f2 := prep zeromean im2 ny nx in
  (forall p q : Z, ~ (reaches ny p wy ty /\ reaches nx q wx tx) ->
     self_distance ny nx f1 (RtoC 1) (IZR p0) (IZR q0) ty tx + 2 * mismatch ny nx f1 f2 ty tx < self_distance ny nx f1 (RtoC 1) (IZR p) (IZR q) ty tx) ->
  exists map0 t1 t2 t3 ym xm u s1 s2 x y rest,
    chi2n_map e im1 im2 err BWrap nthreads zeromean use_np true false allow_huge = Ok (Chi2All map0 t1 t2 t3) /\
    is_argmin2 ny nx (g2 map0) (ym, xm) /\ final_grid e us ny nx map0 ym xm mas mns nfitted u s1 s2 /\
    chi2_shift e im1 im2 err us BWrap nthreads use_np zeromean nfitted false ret_err ret_arr mas mns allow_huge = Ok (RNum x :: RNum y :: rest) /\
    mismatch ny nx f1 f2 y x <= mismatch ny nx f1 f2 ty tx + PI / u * norm2 ny nx f1 /\
    forall k l, (0 <= k < ny)%Z -> (0 <= l < nx)%Z ->
      2 * Rabs (sin (PI * (fftfreq ny k * (y - ty) + fftfreq nx l * (x - tx)))) * Cmod (dft [ny; nx] (fun p => RtoC (img2 f1 p)) [k; l]) <=
      sqrt (IZR (ny * nx)) * (2 * mismatch ny nx f1 f2 ty tx + PI / u * norm2 ny nx f1).
Proof.
  intros e im1 im2 err s us nt np zm nf re rc mas mns huge ny nx t wy wx ty tx p0 q0 H1 H2 Hy Hx Hh Hs Hgg Ht HW f1 f2 Hfar.
  assert (s0 : s <> 0) by (destruct Hs as [[_ ->]|[_ ?]]; [lra|auto]).
  destruct (C116_chi2_shift e im1 im2 err s us nt np zm nf re rc mas mns huge ny nx t H1 H2 Hy Hx Hh Hs Hgg Ht)
    as [c [t1 [t2 [t3 [ym [xm [u [s1 [s2 [x [y [rest [F1 [F2 [F3 [F4 F5]]]]]]]]]]]]]]]]. fold f1 f2 in F5.
  exists c, t1, t2, t3, ym, xm, u, s1, s2, x, y, rest. split; [exact F1|]. split; [exact F2|]. split; [exact F3|]. split; [exact F4|].
  destruct (HW _ _ _ _ _ _ F3) as [U0 [Wy' Wx']].
  assert (W : reaches ny ((ny - 1) / 2 - ym) wy ty /\ reaches nx ((nx - 1) / 2 - xm) wx tx).
  { apply NNPP. intros N. specialize (Hfar _ _ N).
    destruct (C34_scalar_error e im1 im2 err s nt zm np true huge ny nx H1 H2 Hy Hx Hh Hs) as [r [Er [_ V]]]. rewrite F1 in Er. injection Er as <-. cbn [chi2_of_res] in V. fold f1 f2 in V.
    destruct F2 as [A1 [A2 [A3 _]]]. cbn [fst snd] in *.
    set (k0 := (((ny - 1) / 2 - p0) mod ny)%Z). set (l0 := (((nx - 1) / 2 - q0) mod nx)%Z).
    assert (B1 : (0 <= k0 < ny)%Z) by (apply Z.mod_pos_bound; auto). assert (B2 : (0 <= l0 < nx)%Z) by (apply Z.mod_pos_bound; auto).
    specialize (A3 k0 l0 B1 B2). rewrite !V in A3 by auto.
    rewrite (chi2_of_mod ny nx f1 f2 _ ((ny - 1) / 2 - k0) ((nx - 1) / 2 - l0) p0 q0) in A3.
    2:{ unfold k0. rewrite Zminus_mod_idemp_r. f_equal. lia. } 2:{ unfold l0. rewrite Zminus_mod_idemp_r. f_equal. lia. }
    rewrite !(mismatch_whole ny nx Hy Hx) in A3 by auto. unfold Rdiv in A3. rewrite !Rpow_mult_distr in A3.
    assert (S2 : 0 < (/ s) ^ 2) by (assert (Q := Rsqr_pos_lt (/ s) ltac:(apply Rinv_neq_0_compat; auto)); unfold Rsqr in Q; cbn; lra).
    apply (Rmult_le_reg_r _ _ _ S2) in A3.
    assert (A4 : mismatch ny nx f1 f2 (IZR ((ny - 1) / 2 - ym)) (IZR ((nx - 1) / 2 - xm)) <= mismatch ny nx f1 f2 (IZR p0) (IZR q0)) by (apply Rsqr_incr_0_var; [unfold Rsqr; cbn in A3; lra|apply sqrt_pos]).
    assert (M1 := mismatch_up ny nx Hy Hx f1 f2 (IZR p0) (IZR q0) ty tx).
    assert (M2 := self_le ny nx Hy Hx f1 f2 (RtoC 1) (IZR ((ny - 1) / 2 - ym)) (IZR ((nx - 1) / 2 - xm)) ty tx Cmod_1). rewrite mismatch_phase_1 in M2. lra. }
  destruct W as [Wy Wx]. exact (F5 ty tx (reaches_window _ _ _ _ _ _ U0 Wy' Wy) (reaches_window _ _ _ _ _ _ U0 Wx' Wx)).
Qed.

Theorem C119_chi2_shift :
  forall e im1 im2 err s us nthreads use_np zeromean nfitted ret_err ret_arr mas mns allow_huge ny nx t u s1 s2 ty tx (p0 q0 : Z),
  shape im1 = [ny; nx] -> shape im2 = [ny; nx] -> (0 < ny)%Z -> (0 < nx)%Z -> size_ok e allow_huge ny nx ->
  (err = ErrNone /\ s = 1 \/ err = ErrScalar s /\ s <> 0) -> explicit_grid us ny nx u s1 s2 -> one_sigma e t ->
  let f1 := prep zeromean im1 ny nx in let f2 := prep zeromean im2 ny nx in
  (* the image rolled to where the final search would miss the true shift is further from the image at the true shift than some roll is, by twice the noise *)
  (forall p q : Z, ~ (reaches ny p (IZR s1 / (2 * u)) ty /\ reaches nx q (IZR s2 / (2 * u)) tx) ->
     self_distance ny nx f1 (RtoC 1) (IZR p0) (IZR q0) ty tx + 2 * mismatch ny nx f1 f2 ty tx < self_distance ny nx f1 (RtoC 1) (IZR p) (IZR q) ty tx) ->
  exists x y rest,
    chi2_shift e im1 im2 err us BWrap nthreads use_np zeromean nfitted false ret_err ret_arr mas mns allow_huge = Ok (RNum x :: RNum y :: rest) /\
    mismatch ny nx f1 f2 y x <= mismatch ny nx f1 f2 ty tx + PI / u * norm2 ny nx f1 /\
    forall k l, (0 <= k < ny)%Z -> (0 <= l < nx)%Z ->
      2 * Rabs (sin (PI * (fftfreq ny k * (y - ty) + fftfreq nx l * (x - tx)))) * Cmod (dft [ny; nx] (fun p => RtoC (img2 f1 p)) [k; l]) <=
      sqrt (IZR (ny * nx)) * (2 * mismatch ny nx f1 f2 ty tx + PI / u * norm2 ny nx f1).
Proof.
  intros e im1 im2 err s us nt np zm nf re rc mas mns huge ny nx t u s1 s2 ty tx p0 q0 H1 H2 Hy Hx Hh Hs Hg Ht f1 f2 Hfar.
  assert (Hgg : grid_given us ny nx mas) by (destruct us; cbn in *; [contradiction|exists u, s1, s2; exact Hg|exists u, s1, s2; exact Hg]).
  assert (U0 : 0 < u) by (destruct us as [|k|r]; [contradiction|..]; cbn in Hg; [destruct Hg as [-> [Q _]]; apply IZR_lt; lia|destruct Hg as [-> [Q _]]; lra]).
  assert (U : forall c ym xm u' s1' s2', final_grid e us ny nx c ym xm mas mns nf u' s1' s2' -> u' = u /\ s1' = s1 /\ s2' = s2).
  { intros c ym xm u' s1' s2' F3. destruct us as [|k|r]; [contradiction|..]; cbn in F3, Hg.
    - destruct F3 as [-> [_ F3]], Hg as [-> [_ Hg]]. destruct (k <? ny)%Z; destruct F3 as [-> ->], Hg as [-> ->]; auto.
    - destruct F3 as [-> [_ [-> ->]]], Hg as [-> [_ [-> ->]]]; auto. }
  destruct (chi2_shift_found e im1 im2 err s us nt np zm nf re rc mas mns huge ny nx t (IZR s1 / (2 * u)) (IZR s2 / (2 * u)) ty tx p0 q0 H1 H2 Hy Hx Hh Hs Hgg Ht)
    as [c [t1 [t2 [t3 [ym [xm [u' [s1' [s2' [x [y [rest [_ [_ [F3 [F4 F5]]]]]]]]]]]]]]]]; [|exact Hfar|].
  - intros c ym xm u' s1' s2' F3. destruct (U _ _ _ _ _ _ F3) as [-> [-> ->]]. split; [exact U0|]. split; apply Rle_refl.
  - destruct (U _ _ _ _ _ _ F3) as [-> [-> ->]]. exists x, y, rest. split; [exact F4|]. exact F5.
Qed.
Print Assumptions C119_chi2_shift.

(** the default factor 'auto': the final search always reaches at least a pixel in each direction (half a pixel lower on axes of even length) *)
Theorem C119_automatic_factor :
  forall e im1 im2 err s nthreads use_np zeromean nfitted ret_err ret_arr mas mns allow_huge ny nx t ty tx (p0 q0 : Z),
  shape im1 = [ny; nx] -> shape im2 = [ny; nx] -> (0 < ny)%Z -> (0 < nx)%Z -> size_ok e allow_huge ny nx ->
  (err = ErrNone /\ s = 1 \/ err = ErrScalar s /\ s <> 0) -> (2 <= mas)%Z -> one_sigma e t ->
  let f1 := prep zeromean im1 ny nx in let f2 := prep zeromean im2 ny nx in
  (forall p q : Z, ~ (reaches ny p 1 ty /\ reaches nx q 1 tx) ->
     self_distance ny nx f1 (RtoC 1) (IZR p0) (IZR q0) ty tx + 2 * mismatch ny nx f1 f2 ty tx < self_distance ny nx f1 (RtoC 1) (IZR p) (IZR q) ty tx) ->
  exists map0 t1 t2 t3 ym xm u x y rest,
    chi2n_map e im1 im2 err BWrap nthreads zeromean use_np true false allow_huge = Ok (Chi2All map0 t1 t2 t3) /\
    is_argmin2 ny nx (g2 map0) (ym, xm) /\ final_grid e UAuto ny nx map0 ym xm mas mns nfitted u mas mas /\ 1 <= u /\
    chi2_shift e im1 im2 err UAuto BWrap nthreads use_np zeromean nfitted false ret_err ret_arr mas mns allow_huge = Ok (RNum x :: RNum y :: rest) /\
    mismatch ny nx f1 f2 y x <= mismatch ny nx f1 f2 ty tx + PI / u * norm2 ny nx f1 /\
    forall k l, (0 <= k < ny)%Z -> (0 <= l < nx)%Z ->
      2 * Rabs (sin (PI * (fftfreq ny k * (y - ty) + fftfreq nx l * (x - tx)))) * Cmod (dft [ny; nx] (fun p => RtoC (img2 f1 p)) [k; l]) <=
      sqrt (IZR (ny * nx)) * (2 * mismatch ny nx f1 f2 ty tx + PI / u * norm2 ny nx f1).
Proof.
  intros e im1 im2 err s nt np zm nf re rc mas mns huge ny nx t ty tx p0 q0 H1 H2 Hy Hx Hh Hs Hm Ht f1 f2 Hfar.
  destruct (chi2_shift_found e im1 im2 err s UAuto nt np zm nf re rc mas mns huge ny nx t 1 1 ty tx p0 q0 H1 H2 Hy Hx Hh Hs ltac:(cbn; lia) Ht)
    as [c [t1 [t2 [t3 [ym [xm [u [s1 [s2 [x [y [rest [F1 [F2 [F3 [F4 F5]]]]]]]]]]]]]]]]; [|exact Hfar|].
  - intros c ym xm u s1 s2 [-> [-> [size [Hsz [-> _]]]]]. assert (S1 : 1 <= IZR size) by (apply IZR_le; auto). assert (M2 : 2 <= IZR mas) by (apply IZR_le; auto).
    set (u := Rmax 1 _). assert (U1 : 1 <= u) by apply Rmax_l.
    assert (Q : u <= IZR mas / 2).
    { unfold u. apply Rmax_lub; [lra|]. unfold Rdiv at 1. rewrite <- (Rmult_1_r (IZR mas / 2)) at 2. apply Rmult_le_compat_l; [lra|]. rewrite <- Rinv_1. apply Rinv_le_contravar; lra. }
    assert (K : 1 <= IZR mas / (2 * u)). { apply (Rmult_le_reg_r (2 * u)); [lra|]. replace (IZR mas / (2 * u) * (2 * u)) with (IZR mas) by (field; lra). lra. }
    split; [lra|]. split; exact K.
  - assert (F3' := F3). destruct F3' as [-> [-> [size [_ [Hu _]]]]]. exists c, t1, t2, t3, ym, xm, u, x, y, rest. split; [exact F1|]. split; [exact F2|]. split; [exact F3|]. split; [rewrite Hu; apply Rmax_l|]. split; [exact F4|]. exact F5.
Qed.
Print Assumptions C119_automatic_factor.

Theorem C119_register_images :
  forall has_fftw im1 im2 usfac ret_err zeromean nthreads use_np ny nx ty tx (p0 q0 : Z),
  shape im1 = [ny; nx] -> shape im2 = [ny; nx] -> (2 <= ny)%Z -> (2 <= nx)%Z -> 2 < usfac ->
  let f1 := prep zeromean im1 ny nx in let f2 := prep zeromean im2 ny nx in
  (* the image at half-pixel offsets away from the true shift, times any number of modulus 1, is further from the image at the true shift than some half-pixel offset is *)
  (forall (p q : Z) c, Cmod c = 1 -> ~ (near_coarse ny usfac (IZR p / 2) ty /\ near_coarse nx usfac (IZR q / 2) tx) ->
     self_distance ny nx f1 (RtoC 1) (IZR p0 / 2) (IZR q0 / 2) ty tx + 2 * mismatch ny nx f1 f2 ty tx < self_distance ny nx f1 c (IZR p / 2) (IZR q / 2) ty tx) ->
  exists x y (c : C),
    register_images has_fftw im1 im2 usfac false ret_err zeromean None nthreads use_np = Ok (nums [x; y] ++ err_out ret_err usfac) /\ Cmod c = 1 /\
    mismatch_phase ny nx f1 f2 c y x <= mismatch ny nx f1 f2 ty tx + PI / usfac * norm2 ny nx f1 /\
    let B := sqrt (IZR (ny * nx)) * (2 * mismatch ny nx f1 f2 ty tx + PI / usfac * norm2 ny nx f1) in
    let F k l := Cmod (dft [ny; nx] (fun p => RtoC (img2 f1 p)) [k; l]) in
    forall k l k' l', (0 <= k < ny)%Z -> (0 <= l < nx)%Z -> (0 <= k' < ny)%Z -> (0 <= l' < nx)%Z ->
      2 * Rabs (sin (PI * ((fftfreq ny k - fftfreq ny k') * (y - ty) + (fftfreq nx l - fftfreq nx l') * (x - tx)))) * (F k l * F k' l') <= B * (F k l + F k' l').
Proof.
  intros fw im1 im2 u re zm nt np ny nx ty tx p0 q0 H1 H2 Hy Hx Hu f1 f2 Hfar.
  destruct (C117_register_images fw im1 im2 u re zm None nt np ny nx H1 H2 Hy Hx I Hu) as [a [b [x [y [E [Ha [Hb [M1 [c [Hc K]]]]]]]]]]. fold f1 f2 in M1, K.
  assert (Hy' : (0 < ny)%Z) by lia. assert (Hx' : (0 < nx)%Z) by lia.
  exists x, y, c. split; [exact E|]. split; [exact Hc|].
  assert (W : near_coarse ny u (IZR a / 2) ty /\ near_coarse nx u (IZR b / 2) tx).
  { apply NNPP. intros N. destruct (best_phase ny nx Hy' Hx' f1 f2 (IZR a / 2) (IZR b / 2)) as [d [Hd Ed]]. specialize (Hfar a b d Hd N). specialize (M1 p0 q0 I I).
    assert (L : mismatch_phase ny nx f1 f2 d (IZR a / 2) (IZR b / 2) <= mismatch ny nx f1 f2 (IZR p0 / 2) (IZR q0 / 2)).
    { apply Rsqr_incr_0_var; [|apply sqrt_pos]. unfold Rsqr.
      replace (mismatch_phase ny nx f1 f2 d (IZR a / 2) (IZR b / 2) * mismatch_phase ny nx f1 f2 d (IZR a / 2) (IZR b / 2)) with (mismatch_phase ny nx f1 f2 d (IZR a / 2) (IZR b / 2) ^ 2) by (cbn; ring). rewrite Ed.
      rewrite <- mismatch_phase_1. set (m2 := mismatch_phase _ _ _ _ (RtoC 1) _ _). replace (m2 * m2) with (m2 ^ 2) by (cbn; ring). unfold m2.
      rewrite mismatch_phase_sq by (auto || apply Cmod_1). set (r := rcc ny nx f1 f2 (IZR p0 / 2) (IZR q0 / 2)) in *.
      assert (Q : Re (Cmult (Cconj (RtoC 1)) r) <= Cmod r).
      { replace (Cmult (Cconj (RtoC 1)) r) with r by (destruct r; unfold Cmult, Cconj, RtoC; cbn; f_equal; ring). unfold Cmod, Re. refine (Rle_trans _ _ _ (Rle_abs _) _). rewrite <- sqrt_Rsqr_abs. apply sqrt_le_1_alt. unfold Rsqr. assert (T := pow2_ge_0 (snd r)). cbn [pow] in *. lra. }
      lra. }
    assert (A1 := mismatch_up ny nx Hy' Hx' f1 f2 (IZR p0 / 2) (IZR q0 / 2) ty tx). assert (A2 := self_le ny nx Hy' Hx' f1 f2 d (IZR a / 2) (IZR b / 2) ty tx Hd). lra. }
  exact (K ty tx (proj1 W) (proj2 W)).
Qed.
Print Assumptions C119_register_images.

(** a single bright pixel, rolled: no other offset reproduces it *)
Lemma dot_far ny nx i0 j0 p0 q0 : (3 <= ny)%Z -> (3 <= nx)%Z -> (0 <= i0 < ny)%Z -> (0 <= j0 < nx)%Z ->
  let f := prep false (dot ny nx i0 j0) ny nx in
  forall sy sx c, Cmod c = 1 -> ~ (whole_period ny (sy - IZR p0) /\ whole_period nx (sx - IZR q0)) ->
  0 < self_distance ny nx f c sy sx (IZR p0) (IZR q0).
Proof.
  intros Hy3 Hx3 Hi Hj f sy sx c Hc N. assert (Hy : (0 < ny)%Z) by lia. assert (Hx : (0 < nx)%Z) by lia. set (h := fun y x => f ((y - p0) mod ny)%Z ((x - q0) mod nx)%Z).
  assert (E : self_distance ny nx f c sy sx (IZR p0) (IZR q0) = mismatch_phase ny nx f h c sy sx).
  { unfold self_distance, mismatch_phase. f_equal. apply sum2_ext. intros i j Bi Bj. rewrite (cshift_int ny nx f p0 q0 i j) by auto. fold (h i j).
    rewrite <- Cmod_opp. f_equal. f_equal. ring. }
  rewrite E. assert (Hp := dot_no_phase_symmetry ny nx i0 j0 Hy3 Hx3 Hi Hj).
  assert (L := rcc_strict ny nx f h p0 q0 Hy Hx ltac:(reflexivity) sy sx Hp N).
  destruct (best_phase ny nx Hy Hx f h (IZR p0) (IZR q0)) as [d [Hd Ed]]. assert (P := pow2_ge_0 (mismatch_phase ny nx f h d (IZR p0) (IZR q0))). rewrite Ed in P.
  assert (Q := mismatch_phase_sq ny nx Hy Hx f h c sy sx Hc). set (r := rcc ny nx f h sy sx) in *.
  assert (R1 : Re (Cmult (Cconj c) r) <= Cmod r).
  { apply Rle_trans with (Cmod (Cmult (Cconj c) r)); [|rewrite Cmod_mult, Cmod_conj', Hc; lra].
    unfold Cmod, Re. refine (Rle_trans _ _ _ (Rle_abs _) _). rewrite <- sqrt_Rsqr_abs. apply sqrt_le_1_alt. unfold Rsqr. set (w := Cmult _ _). assert (T := pow2_ge_0 (snd w)). cbn [pow] in *. lra. }
  destruct (Rle_lt_or_eq_dec 0 (mismatch_phase ny nx f h c sy sx) (sqrt_pos _)) as [K|K]; [exact K|]. rewrite <- K in Q. cbn [pow] in Q. lra.
Qed.

Example C119_nonvacuous : exists im1 im2 : arr num, is_roll im1 im2 5 5 2 (-2) /\
  explicit_grid (UInt 3) 5 5 3 5 5 /\ one_sigma (Env false (2 ^ 30) false (fun _ _ => NaN)) (159358435 / 100000000) /\ size_ok (Env false (2 ^ 30) false (fun _ _ => NaN)) false 5 5 /\
  let f1 := prep false im1 5 5 in let f2 := prep false im2 5 5 in
  (forall p q : Z, ~ (reaches 5 p (5 / (2 * 3)) 2 /\ reaches 5 q (5 / (2 * 3)) (-2)) ->
     self_distance 5 5 f1 (RtoC 1) (IZR 2) (IZR (-2)) 2 (-2) + 2 * mismatch 5 5 f1 f2 2 (-2) < self_distance 5 5 f1 (RtoC 1) (IZR p) (IZR q) 2 (-2)) /\
  (forall p q : Z, ~ (reaches 5 p 1 2 /\ reaches 5 q 1 (-2)) ->
     self_distance 5 5 f1 (RtoC 1) (IZR 2) (IZR (-2)) 2 (-2) + 2 * mismatch 5 5 f1 f2 2 (-2) < self_distance 5 5 f1 (RtoC 1) (IZR p) (IZR q) 2 (-2)) /\
  (forall (p q : Z) c, Cmod c = 1 -> ~ (near_coarse 5 8 (IZR p / 2) 2 /\ near_coarse 5 8 (IZR q / 2) (-2)) ->
     self_distance 5 5 f1 (RtoC 1) (IZR 4 / 2) (IZR (-4) / 2) 2 (-2) + 2 * mismatch 5 5 f1 f2 2 (-2) < self_distance 5 5 f1 c (IZR p / 2) (IZR q / 2) 2 (-2)).
Proof.
  exists (dot 5 5 1 1), (dot 5 5 3 4).
  assert (HR : is_roll (dot 5 5 1 1) (dot 5 5 3 4) 5 5 2 (-2)).
  { split; [reflexivity|]. split; [reflexivity|]. intros y x Y X. unfold px.
    assert (Q : (y = 0 \/ y = 1 \/ y = 2 \/ y = 3 \/ y = 4)%Z) by lia. assert (Q' : (x = 0 \/ x = 1 \/ x = 2 \/ x = 3 \/ x = 4)%Z) by lia.
    destruct Q as [-> | [-> | [-> | [-> | ->]]]]; destruct Q' as [-> | [-> | [-> | [-> | ->]]]]; reflexivity. }
  split; [exact HR|]. split; [simpl; repeat split; lia|]. split; [split; [lra|reflexivity]|]. split; [right; simpl; lia|].
  cbv zeta. set (f := prep false (dot 5 5 1 1) 5 5). set (g := prep false (dot 5 5 3 4) 5 5).
  assert (M0 : mismatch 5 5 f g 2 (-2) = 0).
  { unfold mismatch. match goal with |- sqrt ?X = 0 => replace X with 0; [apply sqrt_0|] end. symmetry. apply sum2_const0. intros i j Hi Hj. cbv beta.
    rewrite (cshift_int 5 5 f 2 (-2) i j) by lia. destruct HR as [_ [_ R]]. unfold g, f, prep. rewrite R by auto. unfold Cminus. rewrite Cplus_opp_r, Cmod_0. ring. }
  assert (S0 : self_distance 5 5 f (RtoC 1) 2 (-2) 2 (-2) = 0).
  { unfold self_distance. match goal with |- sqrt ?X = 0 => replace X with 0; [apply sqrt_0|] end. symmetry. apply sum2_const0. intros i j _ _. cbv beta. rewrite Cmult_1_l. unfold Cminus. rewrite Cplus_opp_r, Cmod_0. ring. }
  split; [|split].
  - intros p q N. rewrite M0, S0. apply Rle_lt_trans with 0; [lra|]. apply (dot_far 5 5 1 1 2 (-2)); try lia; [apply Cmod_1|].
    intros [W W']. apply N. destruct W as [W|[k W]]; [lia|]. destruct W' as [W'|[l W']]; [lia|]. split; [exists k|exists l]; cbn [Z.even].
    + replace (2 + IZR k * 5 - (IZR p - 0)) with 0 by lra. rewrite Rabs_R0. lra.
    + replace (-2 + IZR l * 5 - (IZR q - 0)) with 0 by lra. rewrite Rabs_R0. lra.
  - intros p q N. rewrite M0, S0. apply Rle_lt_trans with 0; [lra|]. apply (dot_far 5 5 1 1 2 (-2)); try lia; [apply Cmod_1|].
    intros [W W']. apply N. destruct W as [W|[k W]]; [lia|]. destruct W' as [W'|[l W']]; [lia|]. split; [exists k|exists l]; cbn [Z.even].
    + replace (2 + IZR k * 5 - (IZR p - 0)) with 0 by lra. rewrite Rabs_R0. lra.
    + replace (-2 + IZR l * 5 - (IZR q - 0)) with 0 by lra. rewrite Rabs_R0. lra.
  - intros p q c Hc N. rewrite M0. replace (4 / 2) with 2 by lra. replace (-4 / 2) with (-2) by lra. rewrite S0. apply Rle_lt_trans with 0; [lra|]. apply (dot_far 5 5 1 1 2 (-2)); try lia; [exact Hc|].
    intros [W W']. apply N. destruct W as [W|[k W]]; [lia|]. destruct W' as [W'|[l W']]; [lia|]. split; [exists k|exists l].
    + replace (2 + IZR k * 5 - IZR p / 2) with 0 by lra. rewrite Rabs_R0. lra.
    + replace (-2 + IZR l * 5 - IZR q / 2) with 0 by lra. rewrite Rabs_R0. lra.
Qed.
