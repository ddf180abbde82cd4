(** Property C107: chi2_shift and register_images on arbitrary pairs of images *)
From Coq Require Import ZArith Lia List Reals Lra Bool.
From Coquelicot Require Import Complex.
From Verif Require Import Base NDim DFT Kernel Py M_fast_ffts M_shift M_scale M_zoom M_downsample M_convolve M_correlate Arg M_chi2 M_xcorr M_register
  Spec L_shift L_scale L_zoom L_convolve Sum2 Spec2 Spec3 Spec4 L_correlate L_chi2 P_chi2map L_chi2shift L_fshift P_chi2shift P_xcorr P_xcorr2 P_xcorr3
  L_register3 P_register P_noise.
Import ListNotations.
Open Scope R_scope.

Lemma chi2_of_sqdist ny nx f g s a b : s <> 0 -> chi2_of ny nx f g (fun _ _ => s) a b = / s ^ 2 * sqdist ny nx g (rolled ny nx f a b).
Proof.
  intros Hs. unfold chi2_of, sqdist, rolled. change (pixel_sum ny nx) with (sum2 ny nx). rewrite <- sum2_scal. apply sum2_ext. intros i j _ _. field. auto.
Qed.

(** whole-pixel search of chi2_shift on images of odd size: a best roll *)
Lemma factor1 e im1 im2 err s nt np zm nf re rc mas mns huge ny nx t :
  shape im1 = [ny; nx] -> shape im2 = [ny; nx] -> (1 < ny)%Z -> (0 < nx)%Z -> Z.odd ny = true -> Z.odd nx = true -> size_ok e huge ny nx ->
  (err = ErrNone /\ s = 1 \/ err = ErrScalar s /\ s <> 0) -> one_sigma e t ->
  exists ty tx rest, chi2_shift e im1 im2 err (UInt 1) BWrap nt np zm nf false re rc mas mns huge = Ok (RNum (IZR tx) :: RNum (IZR ty) :: rest) /\
    (forall a b, ccf ny nx (prep zm im1 ny nx) (prep zm im2 ny nx) a b <= ccf ny nx (prep zm im1 ny nx) (prep zm im2 ny nx) ty tx) /\
    (forall sy sx, best_roll ny nx (prep zm im1 ny nx) (prep zm im2 ny nx) sy sx -> ty = centred ny sy /\ tx = centred nx sx).
Proof.
  intros H1 H2 Hy1 Hx Oy Ox Hh Hs Ht. assert (Hy : (0 < ny)%Z) by lia.
  assert (He : err_ok err ny nx) by (destruct Hs as [[-> ->]|[-> H]]; simpl; auto).
  assert (Hsn : s <> 0) by (destruct Hs as [[_ ->]|[_ ?]]; [lra|auto]).
  assert (G : explicit_grid (UInt 1) ny nx (IZR 1) ny nx).
  { cbn [explicit_grid]. destruct (Z.ltb_spec 1 ny); [|lia]. repeat split; auto; lia. }
  destruct (C39_minimum_on_grid e im1 im2 err (UInt 1) nt np zm nf re rc mas mns huge ny nx _ _ _ t H1 H2 Hy Hx He Hh G Ht)
    as [c [t1 [t2 [t3 [ym [xm [x [y [rest [i [j [Em [Sa [Ec [Hi [Hj [Edy [Edx Hmin]]]]]]]]]]]]]]]]]].
  destruct (map_interp e im1 im2 err s nt zm np huge ny nx c t1 t2 t3 H1 H2 Hy Hx Hh Hs Em) as [Sc [Vc _]].
  set (f := prep zm im1 ny nx) in *. set (g := prep zm im2 ny nx) in *.
  assert (GS : forall n m a, Z.odd n = true -> grid_shift n m n (IZR 1) a = IZR ((n - 1) / 2 - m - (a - (n - 1) / 2))).
  { intros n m a On. unfold grid_shift. rewrite <- Z.negb_odd, On. cbn [negb]. apply Z.odd_spec in On. destruct On as [q ->].
    replace ((2 * q + 1 - 1) / 2)%Z with q by (Z.to_euclidean_division_equations; lia). rewrite !minus_IZR, plus_IZR, mult_IZR. field. }
  assert (CA : forall a b, chi2_at ny nx c (IZR a) (IZR b) = / s ^ 2 * sqdist ny nx g (rolled ny nx f a b)).
  { intros a b. unfold chi2_at. rewrite <- !minus_IZR. rewrite (tiR_ext _ _ (img2 (g2 c))).
    - rewrite tiR_int2, Vc, chi2_of_sqdist by (auto; apply Z.mod_pos_bound; auto). f_equal.
      rewrite !(proj1 (sqdist_ccf ny nx f g _ _ Hy Hx)). f_equal. f_equal. apply ccf_mod; auto.
      + replace ((ny - 1) / 2 - ((ny - 1) / 2 - a) mod ny - a)%Z with (((ny - 1) / 2 - a) - ((ny - 1) / 2 - a) mod ny)%Z by lia.
        rewrite Zminus_mod_idemp_r, Z.sub_diag. apply Z.mod_0_l. lia.
      + replace ((nx - 1) / 2 - ((nx - 1) / 2 - b) mod nx - b)%Z with (((nx - 1) / 2 - b) - ((nx - 1) / 2 - b) mod nx)%Z by lia.
        rewrite Zminus_mod_idemp_r, Z.sub_diag. apply Z.mod_0_l. lia.
    - intros z Hin. apply inb2' in Hin. destruct Hin as [k [l [-> _]]]. reflexivity. }
  rewrite GS in Edy, Edx by auto.
  set (ty := ((ny - 1) / 2 - ym - (i - (ny - 1) / 2))%Z) in *. set (tx := ((nx - 1) / 2 - xm - (j - (nx - 1) / 2))%Z) in *.
  assert (Sp : 0 < / s ^ 2). { apply Rinv_0_lt_compat. assert (0 <= s ^ 2) by apply pow2_ge_0. assert (s ^ 2 <> 0) by (apply pow_nonzero; auto). lra. }
  (* every residue class of rolls has a node *)
  assert (ND : forall n m d, (0 < n)%Z -> exists a, (0 <= a < n)%Z /\ (((n - 1) / 2 - m - (a - (n - 1) / 2) - d) mod n = 0)%Z).
  { intros n m d Hn. exists (((n - 1) / 2 - m + (n - 1) / 2 - d) mod n)%Z. split; [apply Z.mod_pos_bound; auto|].
    set (w := ((n - 1) / 2 - m + (n - 1) / 2 - d)%Z). replace ((n - 1) / 2 - m - (w mod n - (n - 1) / 2) - d)%Z with (w - w mod n)%Z by (unfold w; lia).
    rewrite Zminus_mod_idemp_r, Z.sub_diag. apply Z.mod_0_l. lia. }
  assert (Mx : forall a b, ccf ny nx f g a b <= ccf ny nx f g ty tx).
  { intros a b. destruct (ND ny ym a Hy) as [p [Hp Ep]]. destruct (ND nx xm b Hx) as [q [Hq Eq]].
    assert (L := Hmin p q Hp Hq). rewrite !GS in L by auto. rewrite Edy, Edx, !CA in L. apply Rmult_le_reg_l in L; [|exact Sp].
    rewrite !(proj1 (sqdist_ccf ny nx f g _ _ Hy Hx)) in L. rewrite (ccf_mod ny nx f g _ _ a b Hy Hx Ep Eq) in L. lra. }
  exists ty, tx, rest. split; [rewrite Ec, Edy, Edx; reflexivity|]. split; [exact Mx|].
  intros sy sx HB.
  destruct Sa as [A1 [A2 [A3 _]]]. cbn [fst snd] in *.
  assert (M0 : forall n a d, (0 < n)%Z -> (((n - 1) / 2 - (a - d) mod n - ((n - 1) / 2 - a + d)) mod n = 0)%Z).
  { intros n a d Hn. replace ((n - 1) / 2 - (a - d) mod n - ((n - 1) / 2 - a + d))%Z with ((a - d) - (a - d) mod n)%Z by lia.
    rewrite Zminus_mod_idemp_r, Z.sub_diag. apply Z.mod_0_l. lia. }
  (* the coarse minimum is that roll *)
  assert (D0 : ~ (((ny - 1) / 2 - ym - sy) mod ny <> 0 \/ ((nx - 1) / 2 - xm - sx) mod nx <> 0)%Z).
  { intros Q. specialize (HB _ _ Q).
    assert (L := A3 (((ny - 1) / 2 - sy) mod ny)%Z (((nx - 1) / 2 - sx) mod nx)%Z ltac:(apply Z.mod_pos_bound; auto) ltac:(apply Z.mod_pos_bound; auto)).
    rewrite !Vc, !chi2_of_sqdist in L by (auto; apply Z.mod_pos_bound; auto). apply Rmult_le_reg_l in L; [|exact Sp].
    rewrite !(proj1 (sqdist_ccf ny nx f g _ _ Hy Hx)) in L.
    rewrite (ccf_mod ny nx f g ((ny - 1) / 2 - ((ny - 1) / 2 - sy) mod ny) ((nx - 1) / 2 - ((nx - 1) / 2 - sx) mod nx) sy sx Hy Hx) in L; [lra| |].
    - replace ((ny - 1) / 2 - ((ny - 1) / 2 - sy) mod ny - sy)%Z with ((ny - 1) / 2 - ((ny - 1) / 2 - sy) mod ny - ((ny - 1) / 2 - (ny - 1) / 2 + sy))%Z by lia. apply M0; auto.
    - replace ((nx - 1) / 2 - ((nx - 1) / 2 - sx) mod nx - sx)%Z with ((nx - 1) / 2 - ((nx - 1) / 2 - sx) mod nx - ((nx - 1) / 2 - (nx - 1) / 2 + sx))%Z by lia. apply M0; auto. }
  assert (D1 : ~ ((ty - sy) mod ny <> 0 \/ (tx - sx) mod nx <> 0)%Z).
  { intros Q. specialize (HB _ _ Q). specialize (Mx sy sx). lra. }
  assert (FIN : forall n m a d, (0 < n)%Z -> Z.odd n = true -> (0 <= m < n)%Z -> (0 <= a < n)%Z -> (((n - 1) / 2 - m - d) mod n = 0)%Z ->
     (((n - 1) / 2 - m - (a - (n - 1) / 2) - d) mod n = 0)%Z -> ((n - 1) / 2 - m - (a - (n - 1) / 2) = centred n d)%Z).
  { intros n m a d Hn On Hm Ha E1 E2. apply Z.odd_spec in On. destruct On as [q ->].
    replace ((2 * q + 1 - 1) / 2)%Z with q in * by (Z.to_euclidean_division_equations; lia).
    apply Z.mod_divide in E1; [|lia]. apply Z.mod_divide in E2; [|lia]. destruct E1 as [u E1], E2 as [v E2].
    assert (D : (a - q = (u - v) * (2 * q + 1))%Z) by lia. assert (D' : (u - v = 0)%Z) by nia.
    apply centred_unique; [lia|Z.to_euclidean_division_equations; lia|]. apply Z.mod_divide; [lia|]. exists (- v)%Z. lia. }
  unfold ty, tx in D1. split; (apply FIN; [auto|auto|auto|auto| |]); lia.
Qed.

(** *** one roll fits better than all others: both functions return it *)
Theorem C107_any_images_agree :
  forall e im1 im2 err s nthreads use_np zeromean nfitted ret_err ret_arr mas mns allow_huge ny nx sy sx t,
  shape im1 = [ny; nx] -> shape im2 = [ny; nx] -> (1 < ny)%Z -> (0 < nx)%Z -> Z.odd ny = true -> Z.odd nx = true -> size_ok e allow_huge ny nx ->
  (err = ErrNone /\ s = 1 \/ err = ErrScalar s /\ s <> 0) -> one_sigma e t ->
  best_abs_roll ny nx (prep zeromean im1 ny nx) (prep zeromean im2 ny nx) sy sx ->
  0 < ccf ny nx (prep zeromean im1 ny nx) (prep zeromean im2 ny nx) sy sx ->
  (exists rest, chi2_shift e im1 im2 err (UInt 1) BWrap nthreads use_np zeromean nfitted false ret_err ret_arr mas mns allow_huge =
     Ok (RNum (IZR (centred nx sx)) :: RNum (IZR (centred ny sy)) :: rest)) /\
  register_images (e_fftw e) im1 im2 1 false false zeromean None nthreads use_np = Ok [RgNum (IZR (centred nx sx)); RgNum (IZR (centred ny sy))].
Proof.
  intros e im1 im2 err s nt np zm nf re rc mas mns huge ny nx sy sx t H1 H2 Hy Hx Oy Ox Hh Hs Ht HB Hp. split.
  - destruct (factor1 e im1 im2 err s nt np zm nf re rc mas mns huge ny nx t H1 H2 Hy Hx Oy Ox Hh Hs Ht) as [ty [tx [rest [E [_ U]]]]].
    destruct (U sy sx) as [-> ->]; [|exists rest; exact E].
    intros a b Q. specialize (HB a b Q). unfold best_abs_roll in HB. rewrite (Rabs_pos_eq (ccf ny nx _ _ sy sx)) in HB by lra.
    eapply Rle_lt_trans; [apply Rle_abs|exact HB].
  - rewrite (C51_unique_peak_is_returned (e_fftw e) im1 im2 false zm None nt np ny nx sy sx) by (auto; try exact I; lia). reflexivity.
Qed.
Print Assumptions C107_any_images_agree.

(** *** a negative correlation counts for register_images only *)
Theorem C107_negative_image :
  forall e im err s nthreads use_np zeromean nfitted ret_err ret_arr mas mns allow_huge ny nx t,
  shape im = [ny; nx] -> (1 < ny)%Z -> (0 < nx)%Z -> Z.odd ny = true -> Z.odd nx = true -> size_ok e allow_huge ny nx ->
  (err = ErrNone /\ s = 1 \/ err = ErrScalar s /\ s <> 0) -> one_sigma e t ->
  no_symmetry ny nx (prep zeromean im ny nx) -> no_antisymmetry ny nx (prep zeromean im ny nx) ->
  register_images (e_fftw e) im (scale_img (-1) im) 1 false false zeromean None nthreads use_np = Ok [RgNum 0; RgNum 0] /\
  exists ty tx rest,
    chi2_shift e im (scale_img (-1) im) err (UInt 1) BWrap nthreads use_np zeromean nfitted false ret_err ret_arr mas mns allow_huge =
      Ok (RNum (IZR tx) :: RNum (IZR ty) :: rest) /\ (ty mod ny <> 0 \/ tx mod nx <> 0)%Z.
Proof.
  intros e im err s nt np zm nf re rc mas mns huge ny nx t H1 Hy1 Hx Oy Ox Hh Hs Ht Hsym Hanti. assert (Hy : (0 < ny)%Z) by lia.
  set (f := prep zm im ny nx) in *. set (g := prep zm (scale_img (-1) im) ny nx).
  assert (Eg : forall a b, ccf ny nx f g a b = - ccf ny nx f f a b).
  { intros a b. rewrite (ccf_scale ny nx f f f g 1 (-1) a b Hy Hx); [ring|intros; ring|]. intros y x _ _. unfold g, f. apply prep_scale. }
  assert (Gap : forall a b, (a mod ny <> 0 \/ b mod nx <> 0)%Z -> Rabs (ccf ny nx f f a b) < ccf ny nx f f 0 0).
  { intros a b Q. apply Rabs_def1.
    - assert (P := ccf_auto_gap ny nx f a b Hy Hx).
      assert (N : 0 <= sum2 ny nx (fun i j => (f ((i - a) mod ny)%Z ((j - b) mod nx)%Z - f i j) ^ 2)) by (apply sum2_nonneg; intros; apply pow2_ge_0).
      destruct N as [N|N]; [lra|]. exfalso. destruct (Hsym a b) as [Q1 Q2]; [|lia]. intros y x HY HX.
      assert (W := sum2_nonneg_0 ny nx _ ltac:(intros; apply pow2_ge_0) (eq_sym N) y x HY HX). cbv beta in W. simpl in W. rewrite Rmult_1_r in W. apply Rsqr_0_uniq in W. lra.
    - assert (P := ccf_anti_gap ny nx f a b Hy Hx).
      assert (N : 0 <= sum2 ny nx (fun i j => (f ((i - a) mod ny)%Z ((j - b) mod nx)%Z + f i j) ^ 2)) by (apply sum2_nonneg; intros; apply pow2_ge_0).
      destruct N as [N|N]; [lra|]. exfalso. destruct (Hanti a b) as [Q1 Q2]; [|lia]. intros y x HY HX.
      assert (W := sum2_nonneg_0 ny nx _ ltac:(intros; apply pow2_ge_0) (eq_sym N) y x HY HX). cbv beta in W. simpl in W. rewrite Rmult_1_r in W. apply Rsqr_0_uniq in W. lra. }
  split.
  - rewrite (C51_unique_peak_is_returned (e_fftw e) im (scale_img (-1) im) false zm None nt np ny nx 0 0); auto; try exact I.
    + assert (C0 : forall n, (0 < n)%Z -> centred n 0 = 0%Z).
      { intros n Hn. symmetry. apply centred_unique; auto. Z.to_euclidean_division_equations; lia. }
      rewrite !C0 by auto. reflexivity.
    + fold f g. intros a b Q. rewrite !Z.sub_0_r in Q. rewrite !Eg, !Rabs_Ropp. eapply Rlt_le_trans; [apply Gap; exact Q|apply Rle_abs].
  - destruct (factor1 e im (scale_img (-1) im) err s nt np zm nf re rc mas mns huge ny nx t H1 H1 Hy1 Hx Oy Ox Hh Hs Ht) as [ty [tx [rest [E [Mx _]]]]].
    fold f g in Mx. exists ty, tx, rest. split; [exact E|].
    destruct (Z.eq_dec (ty mod ny) 0) as [E1|]; [|auto]. destruct (Z.eq_dec (tx mod nx) 0) as [E2|]; [|auto]. exfalso.
    assert (M := Mx 1%Z 0%Z). rewrite !Eg in M.
    rewrite (ccf_mod ny nx f f ty tx 0 0 Hy Hx) in M by (rewrite Z.sub_0_r; auto).
    assert (P := Gap 1%Z 0%Z ltac:(left; rewrite Z.mod_small; lia)). apply Rabs_def2 in P. lra.
Qed.
Print Assumptions C107_negative_image.

(** the hypotheses are met by a pair that is not a roll of one another, and by a single bright pixel *)
Definition uneven : arr num := mk2 3 3 (fun y x => Fin (if ((y =? 2) && (x =? 0))%Z then 5 else if ((y =? 0) && (x =? 1))%Z then -3 else IZR (y - x))).
Definition pixel3 : arr num := mk2 3 3 (fun y x => Fin (if ((y =? 1) && (x =? 1))%Z then 1 else 0)).
Example C107_nonvacuous :
  best_abs_roll 3 3 (prep false pixel3 3 3) (prep false uneven 3 3) 1 (-1) /\ 0 < ccf 3 3 (prep false pixel3 3 3) (prep false uneven 3 3) 1 (-1) /\
  (forall dy dx, ~ is_roll pixel3 uneven 3 3 dy dx) /\
  no_symmetry 3 3 (prep false pixel3 3 3) /\ no_antisymmetry 3 3 (prep false pixel3 3 3).
Proof.
  assert (D : forall g s t, ccf 3 3 (prep false pixel3 3 3) g s t = g ((1 + s) mod 3)%Z ((1 + t) mod 3)%Z).
  { intros g s t. apply ccf_delta; try lia. intros y x Hy Hx. reflexivity. }
  assert (V : forall a, (0 <= a < 3)%Z -> (a = 0 \/ a = 1 \/ a = 2)%Z) by (intros; lia).
  split; [|split; [|split; [|split]]].
  - intros s t Q. rewrite !D. change ((1 + 1) mod 3)%Z with 2%Z. change ((1 + -1) mod 3)%Z with 0%Z.
    assert (A := Z.mod_pos_bound (1 + s) 3 ltac:(lia)). assert (B := Z.mod_pos_bound (1 + t) 3 ltac:(lia)).
    assert (Q' : ((1 + s) mod 3 <> 2 \/ (1 + t) mod 3 <> 0)%Z) by (Z.to_euclidean_division_equations; lia).
    apply V in A. apply V in B. unfold prep, uneven. cbn [get mk2].
    replace (Rabs (if ((2 =? 2) && (0 =? 0))%Z then 5 else if ((2 =? 0) && (0 =? 1))%Z then -3 else IZR (2 - 0))) with 5 by (cbn; rewrite Rabs_pos_eq; lra).
    destruct A as [A|[A|A]]; rewrite A in *; destruct B as [B|[B|B]]; rewrite B in *; cbn; try (exfalso; lia); unfold Rabs; destruct Rcase_abs; lra.
  - rewrite D. unfold prep, uneven. cbn. lra.
  - intros dy dx [_ [_ H]]. assert (H1 := H 0%Z 1%Z ltac:(lia) ltac:(lia)). unfold uneven, pixel3 in H1. cbn [get mk2] in H1.
    cbn [Z.eqb andb] in H1. injection H1 as H1. destruct (_ && _); lra.
  - intros s t H. assert (E := H 1%Z 1%Z ltac:(lia) ltac:(lia)). unfold prep, pixel3 in E. cbn [get mk2] in E.
    change ((1 =? 1)%Z && (1 =? 1)%Z) with true in E.
    destruct (Z.eqb_spec ((1 - s) mod 3) 1) as [E1|E1]; [|cbn in E; lra]. destruct (Z.eqb_spec ((1 - t) mod 3) 1) as [E2|E2]; [|cbn in E; lra].
    split; Z.to_euclidean_division_equations; lia.
  - intros s t H. assert (E := H 1%Z 1%Z ltac:(lia) ltac:(lia)). unfold prep, pixel3 in E. cbn [get mk2] in E.
    change ((1 =? 1)%Z && (1 =? 1)%Z) with true in E. destruct (_ && _) in E; lra.
Qed.
