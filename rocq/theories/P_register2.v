(** Properties C52-C54 (continued): register_images at non-integer factors, grid maximum, maxoff *)
From Coq Require Import ZArith Lia List Reals Lra Bool.
From Coquelicot Require Import Complex.
From Verif Require Import Base NDim DFT Kernel Num Py M_fast_ffts M_shift M_upsample Arg M_chi2 M_xcorr M_register
  Spec L_shift L_scale L_upsample Sum2 Spec2 Spec3 Spec4 L_chi2 L_chi2shift L_fshift L_xcorr P_chi2errors P_xcorr P_xcorr2 P_xcorr3
  L_register L_register2 L_register3 P_register.
Import ListNotations.
Open Scope R_scope.

Lemma dot_no_phase_symmetry ny nx a b : (3 <= ny)%Z -> (3 <= nx)%Z -> (0 <= a < ny)%Z -> (0 <= b < nx)%Z ->
  no_phase_symmetry ny nx (prep false (dot ny nx a b) ny nx).
Proof.
  intros Hy Hx Ha Hb.
  assert (D : forall k, dft [ny; nx] (fun y => RtoC (img2 (prep false (dot ny nx a b) ny nx) y)) k <> RtoC 0).
  { intros k. unfold dft. rewrite (sumNC_single _ _ [a; b]).
    - cbn [img2]. rewrite dot_prep, !Z.eqb_refl. cbn [andb]. rewrite Cmult_1_l. intros E. assert (M := Cmod_cis (- (2 * PI * phZ [ny; nx] k [a; b]))).
      rewrite E, Cmod_0 in M. lra.
    - apply inb2_intro; auto.
    - intros i Hi Hne. apply inb2 in Hi. destruct Hi as [y [x [-> _]]]. cbn [img2]. rewrite dot_prep.
      destruct (Z.eqb_spec y a), (Z.eqb_spec x b); cbn [andb]; subst; [congruence| | |]; apply Cmult_0_l. }
  apply no_phase_symmetry_criterion; auto.
Qed.

Example C52_nonvacuous : let im1 := dot 4 5 1 1 in let im2 := dot 4 5 3 4 in
  is_roll im1 im2 4 5 2 (-2) /\ no_phase_symmetry 4 5 (prep false im1 4 5) /\
  (forall k, (k <> 0)%Z -> register_images true im1 im2 (IZR k) false false false None 4 false = Ok (nums [-2; -2])) /\
  register_images false im1 im2 10 false true false (Some 5%Z) 1 true = Ok (nums [-2; -2; 1 / 10; 1 / 10]).
Proof.
  cbv zeta. destruct C51_nonvacuous as [HR _]. cbv zeta in HR. assert (Hp := dot_no_phase_symmetry 4 5 1 1 ltac:(lia) ltac:(lia) ltac:(lia) ltac:(lia)).
  split; [exact HR|]. split; [exact Hp|]. split.
  - intros k Hk. rewrite (C52_roll_recovered_every_factor true _ _ (IZR k) false false None 4 false 4 5 2 (-2) HR); auto; try lia; try exact I.
    + apply IZR_neq0; auto.
    + right; eauto.
  - rewrite (C52_roll_recovered_every_factor false _ _ 10 true false (Some 5%Z) 1 true 4 5 2 (-2) HR); auto; try (cbn; lia); try lra. right. exists 10%Z. reflexivity.
Qed.

(** a non-integer factor above 2 can miss whole-pixel shifts altogether: every reported shift is a multiple of 1/usfac *)
Theorem C52_noninteger_factor_refuted :
  exists im1 im2 : arr num, is_roll im1 im2 4 4 0 1 /\ no_phase_symmetry 4 4 (prep false im1 4 4) /\
  forall has_fftw nthreads use_np, exists x y,
    register_images has_fftw im1 im2 (5 / 2) false false false None nthreads use_np = Ok (nums [x; y]) /\ x <> 1 /\ x <> IZR (centred 4 1).
Proof.
  exists (dot 4 4 1 1), (dot 4 4 1 2). split; [|split].
  - split; [reflexivity|]. split; [reflexivity|]. intros y x Hy Hx. cbn [get dot mk2]. do 2 f_equal.
    assert (Ey : (y = 0 \/ y = 1 \/ y = 2 \/ y = 3)%Z) by lia. assert (Ex : (x = 0 \/ x = 1 \/ x = 2 \/ x = 3)%Z) by lia.
    destruct Ey as [->|[->|[->| ->]]], Ex as [->|[->|[->| ->]]]; reflexivity.
  - apply dot_no_phase_symmetry; lia.
  - intros hf nt np.
    destruct (register_fine hf (dot 4 4 1 1) (dot 4 4 1 2) (5 / 2) false false None nt np 4 4 eq_refl eq_refl ltac:(lia) ltac:(lia) I ltac:(lra)) as [a [b [A [B [E _]]]]].
    cbn [err_part app] in E. exists (IZR B / (5 / 2)), (IZR A / (5 / 2)). split; [exact E|].
    assert (N : IZR B / (5 / 2) <> 1). { intros Q. assert (2 * IZR B = 5) by lra. rewrite <- (mult_IZR 2) in H. apply eq_IZR in H. lia. }
    split; [exact N|]. exact N.
Qed.
Print Assumptions C52_noninteger_factor_refuted.

(** *** C53 *)
Theorem C53_whole_pixel_maximum :
  forall has_fftw im1 im2 ret_err zeromean maxoff nthreads use_np ny nx,
  shape im1 = [ny; nx] -> shape im2 = [ny; nx] -> (0 < ny)%Z -> (0 < nx)%Z -> mo_ok maxoff ->
  let f := prep zeromean im1 ny nx in let g := prep zeromean im2 ny nx in
  exists ty tx : Z,
    register_images has_fftw im1 im2 1 false ret_err zeromean maxoff nthreads use_np = Ok (nums [IZR tx; IZR ty] ++ err_out ret_err 1) /\
    (- (ny / 2) <= ty <= (ny - 1) / 2)%Z /\ (- (nx / 2) <= tx <= (nx - 1) / 2)%Z /\
    forall s t, within maxoff s -> within maxoff t -> Rabs (ccf ny nx f g s t) <= Rabs (ccf ny nx f g ty tx).
Proof.
  intros hf im1 im2 re zm mo nt np ny nx H1 H2 Hy Hx HM f g.
  destruct (register_whole hf im1 im2 re zm mo nt np ny nx H1 H2 Hy Hx HM) as [ty [tx [E [Ry [Rx [_ [_ Mx]]]]]]].
  exists ty, tx. rewrite <- err_out_part. auto.
Qed.
Print Assumptions C53_whole_pixel_maximum.

Theorem C53_half_pixel_maximum :
  forall has_fftw im1 im2 usfac ret_err zeromean maxoff nthreads use_np ny nx,
  shape im1 = [ny; nx] -> shape im2 = [ny; nx] -> (2 <= ny)%Z -> (2 <= nx)%Z -> mo_ok maxoff ->
  usfac <> 0 -> usfac <> 1 -> usfac <= 2 ->
  let f := prep zeromean im1 ny nx in let g := prep zeromean im2 ny nx in
  exists a b : Z,
    register_images has_fftw im1 im2 usfac false ret_err zeromean maxoff nthreads use_np = Ok (nums [IZR b / 2; IZR a / 2] ++ err_out ret_err usfac) /\
    (- ny <= a < ny)%Z /\ (- nx <= b < nx)%Z /\
    forall s t, within maxoff s -> within maxoff t ->
      Cmod (rcc ny nx f g (IZR s / 2) (IZR t / 2)) <= Cmod (rcc ny nx f g (IZR a / 2) (IZR b / 2)).
Proof.
  intros hf im1 im2 u re zm mo nt np ny nx H1 H2 Hy Hx HM U0 U1 U2 f g.
  destruct (register_half hf im1 im2 u re zm mo nt np ny nx H1 H2 ltac:(lia) ltac:(lia) HM U0 U1 U2) as [a [b [E [Ra [Rb [_ [_ Mx]]]]]]].
  exists a, b. rewrite <- err_out_part. destruct (Z.eqb_spec nx 1); [lia|]. destruct (Z.eqb_spec ny 1); [lia|]. auto.
Qed.
Print Assumptions C53_half_pixel_maximum.

Theorem C53_upsampled_maximum :
  forall has_fftw im1 im2 usfac ret_err zeromean maxoff nthreads use_np ny nx,
  shape im1 = [ny; nx] -> shape im2 = [ny; nx] -> (2 <= ny)%Z -> (2 <= nx)%Z -> mo_ok maxoff -> 2 < usfac ->
  let f := prep zeromean im1 ny nx in let g := prep zeromean im2 ny nx in
  exists a b A B : Z,
    register_images has_fftw im1 im2 usfac false ret_err zeromean maxoff nthreads use_np =
      Ok (nums [IZR B / usfac; IZR A / usfac] ++ err_out ret_err usfac) /\
    (* (a/2, b/2) is a maximum on the half-pixel grid *)
    (- ny <= a < ny)%Z /\ (- nx <= b < nx)%Z /\
    (forall s t, within maxoff s -> within maxoff t ->
      Cmod (rcc ny nx f g (IZR s / 2) (IZR t / 2)) <= Cmod (rcc ny nx f g (IZR a / 2) (IZR b / 2))) /\
    (* the result lies near it *)
    Rabs (IZR A / usfac - IZR a / 2) <= 3 / 4 + 1 / usfac /\ Rabs (IZR B / usfac - IZR b / 2) <= 3 / 4 + 1 / usfac /\
    (* and is a maximum over every point of the fine grid around it *)
    (forall s t, Rabs (IZR s / usfac - IZR a / 2) <= 3 / 4 - 1 / usfac -> Rabs (IZR t / usfac - IZR b / 2) <= 3 / 4 - 1 / usfac ->
      Cmod (rcc ny nx f g (IZR s / usfac) (IZR t / usfac)) <= Cmod (rcc ny nx f g (IZR A / usfac) (IZR B / usfac))) /\
    (* the exact extent of the fine grid *)
    fine_window usfac (IZR a / 2) A /\ fine_window usfac (IZR b / 2) B /\
    forall s t, fine_window usfac (IZR a / 2) s -> fine_window usfac (IZR b / 2) t ->
      Cmod (rcc ny nx f g (IZR s / usfac) (IZR t / usfac)) <= Cmod (rcc ny nx f g (IZR A / usfac) (IZR B / usfac)).
Proof.
  intros hf im1 im2 u re zm mo nt np ny nx H1 H2 Hy Hx HM U f g.
  destruct (register_fine hf im1 im2 u re zm mo nt np ny nx H1 H2 ltac:(lia) ltac:(lia) HM U) as [a [b [A [B [E [Ra [Rb [_ [_ [Mx [WA [WB Fx]]]]]]]]]]]].
  exists a, b, A, B. rewrite <- err_out_part. destruct (Z.eqb_spec nx 1); [lia|]. destruct (Z.eqb_spec ny 1); [lia|].
  split; [exact E|]. split; [exact Ra|]. split; [exact Rb|]. split; [exact Mx|]. split; [apply window_near; auto|]. split; [apply window_near; auto|].
  split; [|auto].
  assert (W : forall c s, Rabs (IZR s / u - c) <= 3 / 4 - 1 / u -> fine_window u c s).
  { intros c s H. unfold fine_window. assert (Rd := roundR_spec (c * u)). set (R0 := roundR (c * u)) in *.
    assert (Hc := ceilR_spec (u * (3 / 2))). set (L := ceilR (u * (3 / 2))) in *.
    assert (K : Rabs (IZR s - c * u) <= 3 / 4 * u - 1).
    { replace (IZR s - c * u) with (u * (IZR s / u - c)) by (field; lra). rewrite Rabs_mult, (Rabs_right u) by lra.
      replace (3 / 4 * u - 1) with (u * (3 / 4 - 1 / u)) by (field; lra). apply Rmult_le_compat_l; lra. }
    assert (Q : (-(L - 1) <= 2 * (s - R0) <= L - 1)%Z).
    { assert (IZR (2 * (s - R0)) <= IZR (L - 1) /\ IZR (- (L - 1)) <= IZR (2 * (s - R0))).
      { rewrite !opp_IZR, mult_IZR, !minus_IZR. unfold Rabs in K, Rd. destruct (Rcase_abs _) in K; destruct (Rcase_abs _) in Rd; lra. }
      destruct H0. split; apply le_IZR; auto. }
    Z.to_euclidean_division_equations; lia. }
  intros s t Hs Ht. apply Fx; apply W; auto.
Qed.
Print Assumptions C53_upsampled_maximum.
(** the interpolated correlation at whole-pixel shifts is the correlation of the images *)
Theorem C53_interpolates_the_correlation :
  forall ny nx f g s t, (0 < ny)%Z -> (0 < nx)%Z -> rcc ny nx f g (IZR s) (IZR t) = RtoC (ccf ny nx f g s t).
Proof. intros. apply rcc_int; auto. Qed.
Print Assumptions C53_interpolates_the_correlation.
Example C53_nonvacuous : let im := mk2 2 3 (fun y x => if (y =? 0)%Z then NaN else Fin (IZR x)) in
  shape im = [2; 3]%Z /\ mo_ok (Some 1%Z) /\ within (Some 1%Z) 1 /\ ~ within (Some 1%Z) 2 /\ fine_window 4 (1 / 2) 3 /\
  (exists s t, Rabs (IZR s / 4 - 1 / 2) <= 3 / 4 - 1 / 4 /\ Rabs (IZR t / 4 - 1 / 2) <= 3 / 4 - 1 / 4 /\ s <> t).
Proof.
  cbv zeta. split; [reflexivity|]. split; [cbn; lia|]. split; [cbn; lia|]. split; [cbn; lia|]. split.
  - unfold fine_window. assert (R : roundR (1 / 2 * 4) = 2%Z) by (apply roundR_near; replace (1 / 2 * 4 - IZR 2) with 0 by field; rewrite Rabs_R0; lra).
    assert (C : ceilR (4 * (3 / 2)) = 6%Z). { replace (4 * (3 / 2)) with (IZR 6) by (cbn; lra). apply ceilR_IZR. }
    rewrite R, C. cbn. lia.
  - exists 2%Z, 3%Z. split; [|split; [|lia]]; apply Rabs_le; lra.
Qed.

(** *** C54 *)
Theorem C54_maxoff_whole_pixel :
  forall has_fftw im1 im2 ret_err zeromean nthreads use_np ny nx M,
  shape im1 = [ny; nx] -> shape im2 = [ny; nx] -> (0 < ny)%Z -> (0 < nx)%Z -> (1 <= M)%Z ->
  exists ty tx : Z,
    register_images has_fftw im1 im2 1 false ret_err zeromean (Some M) nthreads use_np = Ok (nums [IZR tx; IZR ty] ++ err_out ret_err 1) /\
    (Z.abs ty <= M)%Z /\ (Z.abs tx <= M)%Z /\ (ty = - M -> ny = 2 * M)%Z /\ (tx = - M -> nx = 2 * M)%Z.
Proof.
  intros hf im1 im2 re zm nt np ny nx M H1 H2 Hy Hx HM.
  destruct (register_whole hf im1 im2 re zm (Some M) nt np ny nx H1 H2 Hy Hx HM) as [ty [tx [E [Ry [Rx [By [Bx Mx]]]]]]].
  exists ty, tx. rewrite <- err_out_part. cbn [bounded] in By, Bx. split; [exact E|]. lia.
Qed.
Print Assumptions C54_maxoff_whole_pixel.

Theorem C54_maxoff_half_pixel :
  forall has_fftw im1 im2 usfac ret_err zeromean nthreads use_np ny nx M,
  shape im1 = [ny; nx] -> shape im2 = [ny; nx] -> (0 < ny)%Z -> (0 < nx)%Z -> (1 <= M)%Z ->
  usfac <> 0 -> usfac <> 1 -> usfac <= 2 ->
  exists ty tx : R,
    register_images has_fftw im1 im2 usfac false ret_err zeromean (Some M) nthreads use_np = Ok (nums [tx; ty] ++ err_out ret_err usfac) /\
    Rabs ty <= IZR M / 2 /\ Rabs tx <= IZR M / 2.
Proof.
  intros hf im1 im2 u re zm nt np ny nx M H1 H2 Hy Hx HM U0 U1 U2.
  destruct (register_half hf im1 im2 u re zm (Some M) nt np ny nx H1 H2 Hy Hx HM U0 U1 U2) as [a [b [E [Ra [Rb [By [Bx Mx]]]]]]].
  cbn [bounded] in By, Bx. rewrite E, err_out_part. eexists. eexists. split; [reflexivity|].
  assert (B : forall n c, (- M <= c <= M)%Z -> Rabs (if (n =? 1)%Z then 0 else IZR c / 2) <= IZR M / 2).
  { intros n c [C1 C2]. apply IZR_le in C1, C2. rewrite opp_IZR in C1. destruct (n =? 1)%Z; [rewrite Rabs_R0; lra|]. apply Rabs_le. lra. }
  split; apply B; tauto.
Qed.
Print Assumptions C54_maxoff_half_pixel.

Theorem C54_maxoff_upsampled :
  forall has_fftw im1 im2 usfac ret_err zeromean nthreads use_np ny nx M,
  shape im1 = [ny; nx] -> shape im2 = [ny; nx] -> (0 < ny)%Z -> (0 < nx)%Z -> (1 <= M)%Z -> 2 < usfac ->
  exists ty tx : R,
    register_images has_fftw im1 im2 usfac false ret_err zeromean (Some M) nthreads use_np = Ok (nums [tx; ty] ++ err_out ret_err usfac) /\
    Rabs ty <= IZR M / 2 + 3 / 4 + 1 / usfac /\ Rabs tx <= IZR M / 2 + 3 / 4 + 1 / usfac.
Proof.
  intros hf im1 im2 u re zm nt np ny nx M H1 H2 Hy Hx HM U.
  destruct (register_fine hf im1 im2 u re zm (Some M) nt np ny nx H1 H2 Hy Hx HM U) as [a [b [A [B [E [Ra [Rb [By [Bx [Mx [WA [WB Fx]]]]]]]]]]]].
  cbn [bounded] in By, Bx. rewrite E, err_out_part. eexists. eexists. split; [reflexivity|].
  apply window_near in WA; [|exact U]. apply window_near in WB; [|exact U].
  assert (K : 0 < 1 / u) by (apply Rdiv_lt_0_compat; lra).
  assert (BB : forall n c C, (- M <= c <= M)%Z -> Rabs (IZR C / u - IZR c / 2) <= 3 / 4 + 1 / u -> Rabs (if (n =? 1)%Z then 0 else IZR C / u) <= IZR M / 2 + 3 / 4 + 1 / u).
  { intros n c C [C1 C2] W. apply IZR_le in C1, C2. rewrite opp_IZR in C1. destruct (n =? 1)%Z; [rewrite Rabs_R0; lra|].
    apply Rabs_le. unfold Rabs in W. destruct (Rcase_abs _) in W; lra. }
  split; [apply (BB ny a A)|apply (BB nx b B)]; tauto.
Qed.
Print Assumptions C54_maxoff_upsampled.

Lemma dftreg_zero hf b1 b2 u rr re nt np : dftregistration hf b1 b2 u rr re (Some 0%Z) nt np = dftregistration hf b1 b2 u rr re None nt np.
Proof.
  unfold dftregistration. destruct (get_ffts hf nt np) as [fw iv]. destruct (Req_EM_T u 0) as [U|U]; [reflexivity|].
  destruct (shape b1) as [|m [|n [|]]]; try reflexivity. cbv zeta. rewrite !limit_zero. reflexivity.
Qed.
Theorem C54_maxoff_zero_is_no_limit :
  forall has_fftw im1 im2 usfac ret_reg ret_err zeromean nthreads use_np,
  register_images has_fftw im1 im2 usfac ret_reg ret_err zeromean (Some 0%Z) nthreads use_np =
  register_images has_fftw im1 im2 usfac ret_reg ret_err zeromean None nthreads use_np.
Proof. intros. unfold register_images. destruct (get_ffts has_fftw nthreads use_np) as [fw iv]. rewrite dftreg_zero. reflexivity. Qed.
Print Assumptions C54_maxoff_zero_is_no_limit.

(** a roll by exactly -maxoff is within the documented limit but is not found *)
Theorem C54_minus_maxoff_is_excluded_refuted :
  forall has_fftw ret_err nthreads use_np ny nx M,
  (1 <= M)%Z -> (2 * M < ny)%Z -> (0 < nx)%Z ->
  let im1 := dot ny nx M 0 in let im2 := dot ny nx 0 0 in
  is_roll im1 im2 ny nx (- M) 0 /\
  exists ty tx : Z,
    register_images has_fftw im1 im2 1 false ret_err false (Some M) nthreads use_np = Ok (nums [IZR tx; IZR ty] ++ err_out ret_err 1) /\
    ty <> (- M)%Z.
Proof.
  intros hf re nt np ny nx M HM Hy Hx im1 im2. split.
  - split; [reflexivity|]. split; [reflexivity|]. intros y x HY HX. unfold im1, im2. cbn [get dot mk2]. do 2 f_equal.
    replace (x - 0)%Z with x by lia. rewrite (Z.mod_small x) by auto. f_equal. replace (y - - M)%Z with (y + M)%Z by lia.
    destruct (Z.eqb_spec ((y + M) mod ny) M) as [E|E]; destruct (Z.eqb_spec y 0) as [N|N]; try reflexivity; exfalso; [|subst y; apply E; apply Z.mod_small; lia].
    + assert ((y + M) mod ny = M mod ny)%Z by (rewrite E, Z.mod_small; lia).
      assert (W := mod0_small ny y ltac:(lia) ltac:(lia)). apply N, W. replace y with ((y + M) - M)%Z by lia. rewrite Zminus_mod, H, Z.sub_diag. apply Z.mod_0_l. lia.
  - destruct (C54_maxoff_whole_pixel hf im1 im2 re false nt np ny nx M eq_refl eq_refl ltac:(lia) Hx HM) as [ty [tx [E [_ [_ [B _]]]]]].
    exists ty, tx. split; [exact E|]. intros Q. specialize (B Q). lia.
Qed.
Print Assumptions C54_minus_maxoff_is_excluded_refuted.
(** with usfac = 2 the limit counts half pixels: a roll by 1 is lost with maxoff = 1 *)
Theorem C54_half_pixel_units_refuted :
  forall has_fftw nthreads use_np,
  let im1 := dot 4 4 1 1 in let im2 := dot 4 4 2 1 in
  is_roll im1 im2 4 4 1 0 /\
  (register_images has_fftw im1 im2 1 false false false (Some 1%Z) nthreads use_np = Ok (nums [0; 1])) /\
  exists tx ty, register_images has_fftw im1 im2 2 false false false (Some 1%Z) nthreads use_np = Ok (nums [tx; ty]) /\ ty <> 1.
Proof.
  intros hf nt np im1 im2.
  assert (HR : is_roll im1 im2 4 4 1 0).
  { split; [reflexivity|]. split; [reflexivity|]. intros y x Hy Hx. unfold im1, im2. cbn [get dot mk2]. do 2 f_equal.
    assert (Ey : (y = 0 \/ y = 1 \/ y = 2 \/ y = 3)%Z) by lia. assert (Ex : (x = 0 \/ x = 1 \/ x = 2 \/ x = 3)%Z) by lia.
    destruct Ey as [->|[->|[->| ->]]], Ex as [->|[->|[->| ->]]]; reflexivity. }
  split; [exact HR|]. split.
  - rewrite (C51_roll_recovered hf im1 im2 false false (Some 1%Z) nt np 4 4 1 0 HR); try (cbn; lia); [reflexivity|apply dot_no_symmetry; lia|apply dot_no_antisymmetry; lia].
  - destruct (C54_maxoff_half_pixel hf im1 im2 2 false false nt np 4 4 1 eq_refl eq_refl ltac:(lia) ltac:(lia) ltac:(lia) ltac:(lra) ltac:(lra) ltac:(lra)) as [ty [tx [E [B _]]]].
    exists tx, ty. split; [exact E|]. intros ->. rewrite Rabs_R1 in B. lra.
Qed.
Print Assumptions C54_half_pixel_units_refuted.
Example C54_nonvacuous : exists im1 im2 : arr num, shape im1 = [4; 4]%Z /\ is_roll im1 im2 4 4 1 0 /\ (1 <= 1)%Z.
Proof. exists (dot 4 4 1 1), (dot 4 4 2 1). split; [reflexivity|]. split; [|lia]. apply (C54_half_pixel_units_refuted false 1%Z true). Qed.
