(** C137: for an exact, noiseless whole-pixel shift the error bars of chi2_shift cover the true offset, whatever the factor *)
From Coq Require Import ZArith Lia List Reals Lra Bool.
From Coquelicot Require Import Complex.
From Verif Require Import Base NDim DFT Kernel Num Py Sum2 M_fast_ffts M_shift M_scale M_zoom M_upsample M_convolve M_correlate M_kernel Arg M_chi2 M_xcorr M_register
  Spec L_shift L_scale L_upsample L_convolve Spec2 Spec3 Spec4 L_correlate L_chi2 L_zoom L_register L_register2
  L_chi2shift L_fshift P_shift P_chi2map P_chi2errors P_chi2shift P_chi2shift2 P_leastsq P_errgrow P_xcorr P_xcorr2 P_register.
Import ListNotations.
Open Scope R_scope.

(** chi-squared between an image and itself shifted does not depend on the direction (odd sizes) *)
Lemma chi2c_self_even ny nx g s a b : (0 < ny)%Z -> (0 < nx)%Z -> Z.odd ny = true -> Z.odd nx = true -> s <> 0 ->
  chi2c ny nx g g s a b = chi2c ny nx g g s (- a) (- b).
Proof.
  intros Hy Hx Oy Ox s0. assert (Hp := pos2 ny nx Hy Hx).
  assert (AO : all_odd [ny; nx]) by (repeat constructor; auto).
  set (G := fun y => RtoC (img2 g y)).
  assert (Q : forall a b, chi2c ny nx g g s a b = / s ^ 2 * sumNR [ny; nx] (fun x => Cmod (Cplus (Cmult 1 (G x)) (Cmult (- (1)) (shifted [ny; nx] G [a; b] 0 x))) ^ 2)).
  { intros a' b'. rewrite sum2_sumNR, <- sum2_scal. unfold chi2c. change (pixel_sum ny nx) with (sum2 ny nx). apply sum2_ext. intros i j Hi Hj.
    rewrite fshift_shifted by auto. fold G.
    assert (I : Im (shifted [ny; nx] G [a'; b'] 0 [i; j]) = 0) by (apply shifted_real_odd; auto; simpl; tauto).
    destruct (shifted [ny; nx] G [a'; b'] 0 [i; j]) as [p q]. unfold Im in I. cbn [snd] in I. subst q. unfold Re. cbn [fst]. unfold G. cbn [img2].
    replace (Cplus (Cmult 1 (RtoC (g i j))) (Cmult (- (1)) (p, 0))) with (RtoC (g i j - p)) by (unfold Cplus, Cmult, Copp, RtoC; cbn [fst snd]; f_equal; ring).
    rewrite Cmod_R, pow2_abs. field. exact s0. }
  rewrite !Q. f_equal.
  rewrite <- (shifted_energy [ny; nx] (fun x => Cplus (Cmult 1 (G x)) (Cmult (- (1)) (shifted [ny; nx] G [a; b] 0 x))) [- a; - b] 0 Hp eq_refl).
  apply sumNR_ext. intros x Hin. rewrite shifted_lin, shifted_comp by auto.
  replace (addR [a; b] [- a; - b]) with (map (fun _ : Z => 0) [ny; nx]) by (cbn; f_equal; [|f_equal]; ring).
  rewrite Rplus_0_r, shifted_zero by auto.
  match goal with |- Cmod ?A ^ 2 = Cmod ?B ^ 2 => replace A with (Copp B) by (rewrite ?RtoC_opp; ring) end. rewrite Cmod_opp. reflexivity.
Qed.

Theorem C137_error_bars_cover_exact_roll :
  forall e im1 im2 err s us nthreads use_np zeromean nfitted mas mns allow_huge ny nx dy dx t,
  is_roll im1 im2 ny nx dy dx -> (0 < ny)%Z -> (0 < nx)%Z -> Z.odd ny = true -> Z.odd nx = true -> size_ok e allow_huge ny nx ->
  (err = ErrNone /\ s = 1 \/ err = ErrScalar s /\ s <> 0) -> grid_given us ny nx mas -> one_sigma e t ->
  no_symmetry ny nx (prep zeromean im1 ny nx) -> (2 * Z.abs dy < ny)%Z -> (2 * Z.abs dx < nx)%Z ->
  exists x y ex ey,
    chi2_shift e im1 im2 err us BWrap nthreads use_np zeromean nfitted false true false mas mns allow_huge = Ok [RNum x; RNum y; RNum ex; RNum ey] /\
    Rabs (x - IZR dx) <= ex /\ Rabs (y - IZR dy) <= ey /\
    (* an automatic factor with an even max_auto_size (the default is 512) puts no node of the fine grid on a whole pixel: the
       offset is never exact, and the error bars are never zero *)
    (us = UAuto -> Z.even mas = true -> 0 < Rabs (x - IZR dx) /\ 0 < Rabs (y - IZR dy) /\ Rabs (x - IZR dx) <= IZR mas / 2 /\ Rabs (y - IZR dy) <= IZR mas / 2).
Proof.
  intros e im1 im2 err s us nt np zm nf mas mns huge ny nx dy dx t HR Hy Hx Oy Ox Hh He Hg Ht HN By Bx.
  destruct HR as [S1 [S2 V]]. assert (HR : is_roll im1 im2 ny nx dy dx) by (split; auto).
  assert (s0 : s <> 0) by (destruct He as [[_ ->]|[_ ?]]; [lra|auto]).
  assert (EO : err_ok err ny nx) by (destruct He as [[-> _]|[-> ?]]; [exact I|auto]).
  destruct (C43_full_result e im1 im2 err us nt np zm nf true false mas mns huge ny nx t S1 S2 Hy Hx EO Hh Hg Ht)
    as [c [t1 [t2 [t3 [ym [xm [u [s1 [s2 [xv [yv [ups [i [j [xl [xh [yl [yh [E [A [FG [_ [_ [S3 [VU [AF [EB K]]]]]]]]]]]]]]]]]]]]]]]]]]].
  cbn [app] in K.
  destruct (map_interp e im1 im2 err s nt zm np huge ny nx c t1 t2 t3 S1 S2 Hy Hx Hh He E) as [_ [Vc Ic]].
  set (f := prep zm im1 ny nx) in *. set (g := prep zm im2 ny nx) in *.
  assert (PG : forall y x, (0 <= y < ny)%Z -> (0 <= x < nx)%Z -> g y x = f ((y - dy) mod ny)%Z ((x - dx) mod nx)%Z) by (intros; apply prep_roll; auto).
  (* the coarse minimum is the true offset *)
  assert (A0 := A). destruct A as [A1 [A2 [A3 _]]]. cbn [fst snd] in *.
  assert (Hz : g2 c ym xm = 0).
  { assert (L := A3 (((ny - 1) / 2 - dy) mod ny)%Z (((nx - 1) / 2 - dx) mod nx)%Z ltac:(apply Z.mod_pos_bound; auto) ltac:(apply Z.mod_pos_bound; auto)).
    assert (M0 : forall n d, (0 < n)%Z -> (((n - 1) / 2 - ((n - 1) / 2 - d) mod n - d) mod n = 0)%Z).
    { intros n d Hn. replace ((n - 1) / 2 - ((n - 1) / 2 - d) mod n - d)%Z with (((n - 1) / 2 - d) - ((n - 1) / 2 - d) mod n)%Z by lia. rewrite Zminus_mod, Zmod_mod, Z.sub_diag. apply Z.mod_0_l. lia. }
    rewrite (Vc (((ny - 1) / 2 - dy) mod ny)%Z) in L by (apply Z.mod_pos_bound; auto). unfold f, g in L.
    rewrite (chi2_of_roll_zero zm im1 im2 ny nx dy dx s HR Hy Hx) in L by auto.
    assert (G : 0 <= g2 c ym xm) by (rewrite Vc by auto; apply sum2_nonneg; intros; apply pow2_ge_0). lra. }
  set (py := ((ny - 1) / 2 - ym)%Z) in *. set (px_ := ((nx - 1) / 2 - xm)%Z) in *.
  assert (RollG : forall y x, (0 <= y < ny)%Z -> (0 <= x < nx)%Z -> g y x = f ((y - py) mod ny)%Z ((x - px_) mod nx)%Z).
  { intros y x HY HX. rewrite Vc in Hz by auto. fold py px_ in Hz. unfold chi2_of in Hz.
    assert (Z0 := sum2_nonneg_0 ny nx _ ltac:(intros; apply pow2_ge_0) Hz y x HY HX). cbv beta in Z0.
    simpl in Z0. rewrite Rmult_1_r in Z0. apply Rsqr_0_uniq in Z0. unfold Rdiv in Z0. apply Rmult_integral in Z0. destruct Z0 as [Z0|Z0]; [lra|]. exfalso. apply (Rinv_neq_0_compat s s0). exact Z0. }
  assert (PD : (py = dy /\ px_ = dx)%Z).
  { destruct (HN (py - dy) (px_ - dx))%Z as [N1 N2].
    { intros y x HY HX. assert (R1 := RollG ((y + dy) mod ny)%Z ((x + dx) mod nx)%Z ltac:(apply Z.mod_pos_bound; auto) ltac:(apply Z.mod_pos_bound; auto)).
      rewrite PG in R1 by (apply Z.mod_pos_bound; auto). rewrite !Zminus_mod_idemp_l in R1.
      replace (y + dy - dy)%Z with y in R1 by ring. replace (x + dx - dx)%Z with x in R1 by ring.
      replace (y + dy - py)%Z with (y - (py - dy))%Z in R1 by ring. replace (x + dx - px_)%Z with (x - (px_ - dx))%Z in R1 by ring.
      rewrite (Z.mod_small y), (Z.mod_small x) in R1 by auto. symmetry. exact R1. }
    assert (Q : forall n m d, (0 < n)%Z -> Z.odd n = true -> (0 <= m < n)%Z -> (2 * Z.abs d < n)%Z -> (((n - 1) / 2 - m - d) mod n = 0)%Z -> ((n - 1) / 2 - m = d)%Z).
    { intros n m d Hn On Hm Hd Hq. apply Z.odd_spec in On. destruct On as [h ->]. replace (2 * h + 1 - 1)%Z with (h * 2)%Z in * by ring. rewrite Z.div_mul in * by lia.
      apply Z.mod_divide in Hq; [|lia]. destruct Hq as [k Hk]. assert (k = 0)%Z by nia. lia. }
    split; [apply (Q ny ym dy)|apply (Q nx xm dx)]; auto. }
  destruct PD as [Ey Ex].
  (* the fine map is symmetric about it *)
  assert (U0 : 0 < u /\ (0 < s1)%Z /\ (0 < s2)%Z).
  { destruct (final_window e us ny nx c ym xm mas mns nf Hy Hx Hg A0) as [u' [s1' [s2' [W [FG' [W1 [W2 W3]]]]]]].
    destruct us as [|k|r]; cbn [final_grid] in FG.
    - destruct FG as [-> [-> [size [Hs [Hu _]]]]]. destruct FG' as [-> [-> _]]. split; [rewrite Hu; assert (Q := Rmax_l 1 (IZR mas / 2 / IZR size)); lra|lia].
    - destruct (explicit_window_ok e (UInt k) ny nx u s1 s2 (g2 c) mas mns nf Hy Hx FG) as [_ Q]. exact Q.
    - destruct (explicit_window_ok e (UFloat r) ny nx u s1 s2 (g2 c) mas mns nf Hy Hx FG) as [_ Q]. exact Q. }
  destruct U0 as [U0 [P1 P2]].
  assert (GS : forall n m sz a, Z.odd n = true -> grid_shift n m sz u a = IZR ((n - 1) / 2 - m) - (IZR a - (IZR sz - 1) / 2) / u).
  { intros n m sz a On. unfold grid_shift. rewrite <- Z.negb_odd, On. cbn [negb]. rewrite minus_IZR. lra. }
  set (da := fun a => (IZR a - (IZR s1 - 1) / 2) / u) in *. set (db := fun b => (IZR b - (IZR s2 - 1) / 2) / u) in *.
  assert (VAL : forall a b, (0 <= a < s1)%Z -> (0 <= b < s2)%Z -> g2 ups a b = chi2c ny nx g g s (- da a) (- db b)).
  { intros a b Ha Hb. destruct (VU a b Ha Hb) as [_ [_ ->]]. destruct (Ic (grid_shift ny ym s1 u a) (grid_shift nx xm s2 u b)) as [_ ->]; auto.
    rewrite !GS by auto. fold py px_. rewrite Ey, Ex. unfold chi2c. change (pixel_sum ny nx) with (sum2 ny nx). apply sum2_ext. intros i' j' Hi Hj.
    rewrite (fshift_of_roll ny nx f g dy dx (- da a) (- db b) i' j') by auto. reflexivity. }
  assert (SYM : forall a b, (0 <= a < s1)%Z -> (0 <= b < s2)%Z -> g2 ups (s1 - 1 - a) (s2 - 1 - b) = g2 ups a b).
  { intros a b Ha Hb. rewrite !VAL by lia. rewrite (chi2c_self_even ny nx g s (- da a)) by auto.
    unfold da, db. rewrite !minus_IZR. f_equal; field; lra. }
  apply one_sigma_thr in Ht. destruct Ht as [Ht Ht0].
  destruct (C42_error_bars e ups u 1 2 s1 s2 t S3 P1 P2 U0 Ht Ht0) as [ya [xa [a' [b' [c' [d' [MI [EB' [N1 [N2 [N3 [N4 [_ [_ L]]]]]]]]]]]]]].
  rewrite EB in EB'. injection EB' as <- <- <- <-.
  assert (QQ := is_argmin2_unique s1 s2 (g2 ups) _ _ AF MI). injection QQ as <- <-.
  destruct L as [[_ L1] [[_ L2] [[_ L3] [_ L4]]]].
  destruct AF as [B1 [B2 _]]. cbn [fst snd] in B1, B2.
  assert (NM : near_min s1 s2 (g2 ups) i j t (s1 - 1 - i) (s2 - 1 - j)) by (split; [lia|]; split; [lia|]; rewrite SYM by auto; lra).
  specialize (L1 _ _ NM). specialize (L2 _ _ NM). specialize (L3 _ _ NM). specialize (L4 _ _ NM). cbv beta in *.
  rewrite !minus_IZR in L1, L2, L3, L4.
  assert (HALF : forall k sz lo hi, 0 <= lo -> 0 <= hi -> (k - (sz - 1 - k)) / u <= lo -> (sz - 1 - k - k) / u <= hi -> Rabs ((k - (sz - 1) / 2) / u) <= (lo + hi) / 2).
  { intros k sz lo hi Hl Hh' M1 M2. replace ((k - (sz - 1 - k)) / u) with (2 * ((k - (sz - 1) / 2) / u)) in M1 by (field; lra).
    replace ((sz - 1 - k - k) / u) with (- (2 * ((k - (sz - 1) / 2) / u))) in M2 by (field; lra). set (w := (k - (sz - 1) / 2) / u) in *.
    apply Rabs_le. lra. }
  assert (XE : grid_shift nx xm s2 u j - IZR dx = - db j) by (rewrite GS by auto; fold px_; rewrite Ex; unfold db; ring).
  assert (YE : grid_shift ny ym s1 u i - IZR dy = - da i) by (rewrite GS by auto; fold py; rewrite Ey; unfold da; ring).
  exists (grid_shift nx xm s2 u j), (grid_shift ny ym s1 u i), ((xl + xh) / 2), ((yl + yh) / 2). split; [exact K|].
  rewrite XE, YE, !Rabs_Ropp. split; [apply HALF; auto|]. split; [apply HALF; auto|].
  intros -> Em. destruct FG as [-> [-> [size [Hs [Hu _]]]]].
  assert (U1 : 1 <= u) by (rewrite Hu; apply Rmax_l).
  apply Z.even_spec in Em. destruct Em as [h Eh].
  assert (NZ : forall k, (0 <= k < mas)%Z -> 0 < Rabs ((IZR k - (IZR mas - 1) / 2) / u) <= IZR mas / 2).
  { intros k Hk. assert (K2 : IZR k - (IZR mas - 1) / 2 = IZR (2 * k - mas + 1) / 2) by (rewrite plus_IZR, minus_IZR, mult_IZR; lra). rewrite K2.
    assert (M1 : (1 <= Z.abs (2 * k - mas + 1) <= mas)%Z) by lia.
    unfold Rdiv. rewrite !Rabs_mult, !Rabs_inv, (Rabs_right 2), (Rabs_right u), <- abs_IZR by lra. destruct M1 as [M1 M2]. apply IZR_le in M1, M2.
    assert (IU : 0 < / u <= 1) by (split; [apply Rinv_0_lt_compat; lra|rewrite <- Rinv_1; apply Rinv_le_contravar; lra]).
    split; [apply Rmult_lt_0_compat; lra|]. assert (W := Rmult_le_compat_l (IZR (Z.abs (2 * k - mas + 1)) * / 2) (/ u) 1). lra. }
  unfold da, db. destruct (NZ i B1). destruct (NZ j B2). tauto.
Qed.
Print Assumptions C137_error_bars_cover_exact_roll.

(** a bright pixel moved by (1, -2): the default call, factor 'auto'; the offset is within the error bars and not exact *)
Example C137_nonvacuous :
  let e := Env true 4294967296 true (fun _ _ => Fin 2) in
  is_roll (dot 5 7 3 2) (dot 5 7 4 0) 5 7 1 (-2) /\ no_symmetry 5 7 (prep false (dot 5 7 3 2) 5 7) /\
  exists x y ex ey, chi2_shift e (dot 5 7 3 2) (dot 5 7 4 0) (ErrScalar (1 / 2)) UAuto BWrap 1 false false 2 false true false 512 (11 / 10) false = Ok [RNum x; RNum y; RNum ex; RNum ey] /\
    0 < Rabs (x - (-2)) <= ex /\ 0 < Rabs (y - 1) <= ey.
Proof.
  intros e. assert (HR : is_roll (dot 5 7 3 2) (dot 5 7 4 0) 5 7 1 (-2)).
  { split; [reflexivity|]. split; [reflexivity|]. intros y x Hy Hx. cbn [get dot mk2]. do 2 f_equal.
    assert (Ey : (y = 0 \/ y = 1 \/ y = 2 \/ y = 3 \/ y = 4)%Z) by lia. assert (Ex : (x = 0 \/ x = 1 \/ x = 2 \/ x = 3 \/ x = 4 \/ x = 5 \/ x = 6)%Z) by lia.
    destruct Ey as [->|[->|[->|[->| ->]]]], Ex as [->|[->|[->|[->|[->|[->| ->]]]]]]; reflexivity. }
  assert (HN : no_symmetry 5 7 (prep false (dot 5 7 3 2) 5 7)) by (apply dot_no_symmetry; lia).
  split; [exact HR|]. split; [exact HN|].
  destruct (C137_error_bars_cover_exact_roll e _ _ (ErrScalar (1 / 2)) (1 / 2) UAuto 1 false false 2 512 (11 / 10) false 5 7 1 (-2) 2 HR) as [x [y [ex [ey [K [X [Y Z]]]]]]]; auto; try lia.
  - right. cbn. lia.
  - right. split; [reflexivity|lra].
  - cbn. lia.
  - split; [lra|reflexivity].
  - destruct (Z eq_refl eq_refl) as [Z1 [Z2 _]]. exists x, y, ex, ey. tauto.
Qed.
