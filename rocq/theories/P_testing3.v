(** C128: the Gaussian image pairs of the tests (make_offset_images); C129: the synthetic extended image (make_extended) *)
From Coq Require Import ZArith Lia List Reals Lra Bool.
From Coquelicot Require Import Complex.
From Verif Require Import Base NDim DFT Kernel Num Py Sum2 M_fast_ffts M_shift M_scale M_zoom M_upsample M_convolve M_correlate M_kernel Arg M_chi2 M_xcorr M_register M_testing2
  Spec L_shift L_scale L_upsample L_convolve Spec2 Spec3 Spec4 L_correlate L_chi2 L_zoom L_register L_register2
  L_chi2shift L_fshift P_shift P_chi2map P_chi2errors P_chi2shift P_chi2shift2 P_rounding L_iterzoom2 L_accuracy P_accuracy P_rounding10.
Import ListNotations.
Open Scope R_scope.

Lemma sq_pos w : w <> 0 -> 0 < w ^ 2.
Proof. intros H. assert (Q := pow2_ge_0 w). assert (N := pow_nonzero w 2 H). lra. Qed.
(** a Gaussian of the given amplitude and width at distance (dy, dx) from its centre *)
Definition gaussian (amp width dy dx : R) : R := amp * exp (- (dy ^ 2 + dx ^ 2) / (2 * width ^ 2)).

Theorem C128_offset_images :
  forall xsh ysh imsize width amp noiseamp xc yc randn,
  let n := truncR imsize in (0 <= n)%Z -> width <> 0 -> noiseamp <> 0 -> amp <> 0 ->
  exists im1 im2 tol, make_offset_images xsh ysh imsize width amp noiseamp (PInt xc) (PInt yc) randn = Ok (im1, im2, tol) /\
    shape im1 = [n; n] /\ shape im2 = [n; n] /\
    (forall y x, get im1 [y; x] = gaussian amp width (IZR (y - yc)) (IZR (x - xc))) /\
    (forall y x, get im2 [y; x] = randn y x * noiseamp + gaussian amp width (IZR (y - yc) - ysh) (IZR (x - xc) - xsh)) /\
    (0 < amp / noiseamp -> exists t, tol = Fin t /\ t = 3 / sqrt (2 * PI * width ^ 2 * (amp / noiseamp)) /\ 0 < t) /\
    (amp / noiseamp < 0 -> tol = NaN).
Proof.
  intros xsh ysh imsize width amp noiseamp xc yc randn n Hn Hw Hna Ha. unfold make_offset_images. fold n. destruct (Z.ltb_spec n 0); [lia|].
  destruct (Req_EM_T width 0); [contradiction|]. destruct (Req_EM_T noiseamp 0); [contradiction|].
  assert (W2 : 0 < width ^ 2) by (apply sq_pos; auto). assert (P := PI_RGT_0). assert (PW : 0 < 2 * PI * width ^ 2) by (apply Rmult_lt_0_compat; lra).
  assert (Q : 2 * PI * width ^ 2 * amp / noiseamp = 2 * PI * width ^ 2 * (amp / noiseamp)) by (field; auto).
  assert (A0 : amp / noiseamp <> 0) by (intros E; apply Ha; apply (Rmult_eq_reg_r (/ noiseamp)); [rewrite Rmult_0_l; exact E|apply Rinv_neq_0_compat; auto]).
  destruct (Req_EM_T _ 0) as [E|E]; [rewrite Q in E; apply Rmult_integral in E; lra|].
  eexists. eexists. eexists. split; [reflexivity|]. split; [reflexivity|]. split; [reflexivity|]. split; [|split; [|split]].
  - intros y x. cbn [get mk2]. unfold gaussian. f_equal. f_equal. f_equal. f_equal.
    assert (S0 : 0 <= IZR ((x - xc) * (x - xc)) + IZR ((y - yc) * (y - yc))) by (apply Rplus_le_le_0_compat; apply IZR_le, Z.square_nonneg).
    cbn [pow]. rewrite Rmult_1_r, sqrt_sqrt by exact S0. rewrite !mult_IZR. ring.
  - intros y x. cbn [get mk2]. unfold gaussian. rewrite (Rplus_comm ((IZR (x - xc) - xsh) ^ 2)). reflexivity.
  - intros H0. assert (0 < 2 * PI * width ^ 2 * (amp / noiseamp)) by (apply Rmult_lt_0_compat; auto). rewrite Q. destruct (Rlt_dec _ 0); [lra|].
    exists (3 / sqrt (2 * PI * width ^ 2 * (amp / noiseamp))). split; [f_equal; unfold Rdiv; ring|]. split; [reflexivity|]. apply Rmult_lt_0_compat; [lra|]. apply Rinv_0_lt_compat, sqrt_lt_R0. lra.
  - intros H0. rewrite Q. destruct (Rlt_dec _ 0); [reflexivity|]. assert (2 * PI * width ^ 2 * (amp / noiseamp) < 0); [|lra]. assert (M := Rmult_lt_compat_l _ _ _ PW H0). lra.
Qed.
Print Assumptions C128_offset_images.

(** without noise, or with a float centre, it fails *)
Theorem C128_refuted :
  forall xsh ysh imsize width amp xc yc randn, (0 <= truncR imsize)%Z -> width <> 0 ->
  make_offset_images xsh ysh imsize width amp 0 (PInt xc) (PInt yc) randn = Raise ZeroDivisionError /\
  (forall noiseamp fx fy, make_offset_images xsh ysh imsize width amp noiseamp (PFloat fx) (PFloat fy) randn = Raise TypeError).
Proof.
  intros xsh ysh imsize width amp xc yc randn Hn Hw. unfold make_offset_images. destruct (Z.ltb_spec (truncR imsize) 0); [lia|].
  split; [|reflexivity]. destruct (Req_EM_T width 0); [contradiction|]. destruct (Req_EM_T 0 0); [reflexivity|contradiction].
Qed.
Print Assumptions C128_refuted.

(** the two centres are at least D - 1 pixels away from every border *)
Definition away (n c s D : Z) : Prop := (D <= c + 1)%Z /\ (D <= n - c)%Z /\ (D <= c + s + 1)%Z /\ (D <= n - (c + s))%Z.

Lemma wrapped n c s D i : (0 < n)%Z -> away n c s D -> (0 <= i < n)%Z -> ((i - s) mod n <> i - s)%Z ->
  (D <= Z.abs (i - c - s))%Z /\ (D <= Z.abs ((i - s) mod n - c))%Z.
Proof.
  intros Hn [A1 [A2 [A3 A4]]] Hi Hne. assert (B := Z.mod_pos_bound (i - s) n Hn). assert (E := Z_div_mod_eq_full (i - s) n).
  set (k := ((i - s) / n)%Z) in *. set (i' := ((i - s) mod n)%Z) in *.
  assert (K : (k <= -1 \/ k >= 1)%Z) by (destruct (Z.eq_dec k 0) as [K|K]; [rewrite K in E; lia|lia]).
  destruct K as [K|K].
  - assert (n * k <= - n)%Z by nia. lia.
  - assert (n <= n * k)%Z by nia. lia.
Qed.
Lemma gaussian_tail amp width dy dx D : 0 <= amp -> width <> 0 -> 0 <= D -> (D <= Rabs dy \/ D <= Rabs dx) -> 0 <= gaussian amp width dy dx <= gaussian amp width D 0.
Proof.
  intros Ha Hw HD H. unfold gaussian. assert (W2 : 0 < 2 * width ^ 2) by (assert (0 < width ^ 2) by (apply sq_pos; auto); lra).
  split; [apply Rmult_le_pos; [auto|left; apply exp_pos]|]. apply Rmult_le_compat_l; [auto|].
  assert (S : D ^ 2 + 0 ^ 2 <= dy ^ 2 + dx ^ 2).
  { assert (Py := pow2_ge_0 dy). assert (Px := pow2_ge_0 dx). rewrite <- (pow2_abs dy), <- (pow2_abs dx) in *. destruct H as [H|H]; assert (Q := pow_incr D _ 2 (conj HD H)); lra. }
  assert (L : - (dy ^ 2 + dx ^ 2) / (2 * width ^ 2) <= - (D ^ 2 + 0 ^ 2) / (2 * width ^ 2)) by (apply Rmult_le_compat_r; [left; apply Rinv_0_lt_compat; auto|lra]).
  destruct L as [L|L]; [left; apply exp_increasing; exact L|right; f_equal; exact L].
Qed.

Theorem C128_true_shift :
  forall (xsh ysh : Z) imsize width amp noiseamp xc yc randn D im1 im2 tol,
  let n := truncR imsize in (0 < n)%Z -> 0 <= amp -> (0 <= D)%Z -> away n yc ysh D -> away n xc xsh D ->
  make_offset_images (IZR xsh) (IZR ysh) imsize width amp noiseamp (PInt xc) (PInt yc) randn = Ok (im1, im2, tol) ->
  mismatch n n (fun y x => get im1 [y; x]) (fun y x => get im2 [y; x]) (IZR ysh) (IZR xsh) <=
    norm2 n n (fun y x => randn y x * noiseamp) + IZR n * gaussian amp width (IZR D) 0.
Proof.
  intros xsh ysh imsize width amp noiseamp xc yc randn D im1 im2 tol n Hn Ha HD Ay Ax E.
  assert (HH : width <> 0 /\ noiseamp <> 0 /\ amp <> 0).
  { unfold make_offset_images in E. fold n in E. destruct (Z.ltb_spec n 0); [discriminate|]. destruct (Req_EM_T width 0); [discriminate|]. destruct (Req_EM_T noiseamp 0); [discriminate|].
    split; [auto|]. split; [auto|]. intros ->. destruct (Req_EM_T _ 0) as [Q|Q]; [discriminate|]. apply Q. field. auto. }
  destruct HH as [Hw [Hna Ha0]].
  destruct (C128_offset_images (IZR xsh) (IZR ysh) imsize width amp noiseamp xc yc randn ltac:(fold n; lia) Hw Hna Ha0) as [j1 [j2 [tl [E' [S1 [S2 [V1 [V2 _]]]]]]]].
  rewrite E in E'. injection E' as <- <- <-.
  set (noise := fun y x => randn y x * noiseamp). set (tail := fun y x => get im2 [y; x] - noise y x - get im1 [(y - ysh) mod n; (x - xsh) mod n]%Z).
  assert (M : mismatch n n (fun y x => get im1 [y; x]) (fun y x => get im2 [y; x]) (IZR ysh) (IZR xsh) = norm2 n n (fun y x => noise y x + tail y x)).
  { unfold mismatch, norm2. f_equal. apply sum2_ext. intros y x Hy Hx. rewrite (cshift_int n n) by auto. rewrite <- RtoC_minus, Cmod_R, pow2_abs. unfold tail. ring. }
  rewrite M. refine (Rle_trans _ _ _ (norm2_add n n _ _) _). apply Rplus_le_compat_l.
  replace (IZR n * gaussian amp width (IZR D) 0) with (sqrt (IZR (n * n)) * gaussian amp width (IZR D) 0).
  2:{ rewrite mult_IZR, sqrt_square; [reflexivity|]. apply IZR_le. lia. }
  assert (G0 : 0 <= gaussian amp width (IZR D) 0) by (unfold gaussian; apply Rmult_le_pos; [auto|left; apply exp_pos]).
  apply norm2_bound; try lia; auto. intros y x Hy Hx. unfold tail, noise. rewrite V1, V2.
  replace (randn y x * noiseamp + gaussian amp width (IZR (y - yc) - IZR ysh) (IZR (x - xc) - IZR xsh) - randn y x * noiseamp) with (gaussian amp width (IZR (y - yc) - IZR ysh) (IZR (x - xc) - IZR xsh)) by ring.
  assert (D0 : 0 <= IZR D) by (apply IZR_le; auto).
  assert (T : forall dy dx dy' dx', (IZR D <= Rabs dy \/ IZR D <= Rabs dx) -> (IZR D <= Rabs dy' \/ IZR D <= Rabs dx') -> Rabs (gaussian amp width dy dx - gaussian amp width dy' dx') <= gaussian amp width (IZR D) 0).
  { intros dy dx dy' dx' H1 H2. assert (Q1 := gaussian_tail amp width dy dx (IZR D) Ha Hw D0 H1). assert (Q2 := gaussian_tail amp width dy' dx' (IZR D) Ha Hw D0 H2). apply Rabs_le. lra. }
  assert (AZ : forall k, (D <= Z.abs k)%Z -> IZR D <= Rabs (IZR k)) by (intros k Hk; rewrite <- abs_IZR; apply IZR_le; exact Hk).
  rewrite <- !minus_IZR.
  destruct (Z.eq_dec ((y - ysh) mod n) (y - ysh)) as [Ey|Ny].
  - destruct (Z.eq_dec ((x - xsh) mod n) (x - xsh)) as [Ex|Nx].
    + rewrite Ey, Ex. replace (y - ysh - yc)%Z with (y - yc - ysh)%Z by ring. replace (x - xsh - xc)%Z with (x - xc - xsh)%Z by ring. rewrite Rminus_diag_eq by reflexivity. rewrite Rabs_R0. exact G0.
    + destruct (wrapped n xc xsh D x Hn Ax Hx Nx) as [B1 B2]. apply T; right; apply AZ; assumption.
  - destruct (wrapped n yc ysh D y Hn Ay Hy Ny) as [B1 B2]. apply T; left; apply AZ; assumption.
Qed.
Print Assumptions C128_true_shift.

(** test_shifts (gaussfit=False) for whole-pixel offsets: chi2_shift on the two images *)
Theorem C128_test_shifts :
  forall (xsh ysh : Z) imsize width amp noiseamp xc yc randn D im1 im2 tol e err s us nthreads use_np nfitted ret_err ret_arr mas mns allow_huge t,
  let n := truncR imsize in (3 <= n)%Z -> 0 <= amp -> (0 <= D)%Z -> away n yc ysh D -> away n xc xsh D ->
  make_offset_images (IZR xsh) (IZR ysh) imsize width amp noiseamp (PInt xc) (PInt yc) randn = Ok (im1, im2, tol) ->
  size_ok e allow_huge n n -> (err = ErrNone /\ s = 1 \/ err = ErrScalar s /\ s <> 0) -> grid_given us n n mas -> one_sigma e t ->
  exists map0 t1 t2 t3 ym xm u s1 s2 x y rest,
    chi2n_map e (amap Fin im1) (amap Fin im2) err BWrap nthreads false use_np true false allow_huge = Ok (Chi2All map0 t1 t2 t3) /\
    is_argmin2 n n (g2 map0) (ym, xm) /\ final_grid e us n n map0 ym xm mas mns nfitted u s1 s2 /\
    chi2_shift e (amap Fin im1) (amap Fin im2) err us BWrap nthreads use_np false nfitted false ret_err ret_arr mas mns allow_huge = Ok (RNum x :: RNum y :: rest) /\
    (in_window n ym s1 u (IZR ysh) -> in_window n xm s2 u (IZR xsh) ->
      let bound := IZR n * (2 * (norm2 n n (fun y x => randn y x * noiseamp) + IZR n * gaussian amp width (IZR D) 0) + PI / u * norm2 n n (fun y x => get im1 [y; x])) in
      let wave := Cmod (sumC n (fun i => sumC n (fun j => Cmult (RtoC (gaussian amp width (IZR (i - yc)) (IZR (j - xc)))) (cis (- (2 * PI * (IZR i / IZR n))))))) in
      let wavex := Cmod (sumC n (fun i => sumC n (fun j => Cmult (RtoC (gaussian amp width (IZR (i - yc)) (IZR (j - xc)))) (cis (- (2 * PI * (IZR j / IZR n))))))) in
      2 * Rabs (sin (PI * (y - IZR ysh) / IZR n)) * wave <= bound /\ 2 * Rabs (sin (PI * (x - IZR xsh) / IZR n)) * wavex <= bound).
Proof.
  intros xsh ysh imsize width amp noiseamp xc yc randn D im1 im2 tol e err s us nt np nf re ra mas mns huge t n Hn Ha HD Ay Ax E Hsz He Hg Ht.
  assert (TS := C128_true_shift xsh ysh imsize width amp noiseamp xc yc randn D im1 im2 tol). cbv zeta in TS. fold n in TS. specialize (TS ltac:(lia) Ha HD Ay Ax E).
  assert (HH : width <> 0 /\ noiseamp <> 0 /\ amp <> 0).
  { unfold make_offset_images in E. fold n in E. destruct (Z.ltb_spec n 0); [discriminate|]. destruct (Req_EM_T width 0); [discriminate|]. destruct (Req_EM_T noiseamp 0); [discriminate|].
    split; [auto|]. split; [auto|]. intros ->. destruct (Req_EM_T _ 0) as [Q|Q]; [discriminate|]. apply Q. field. auto. }
  destruct HH as [Hw [Hna Ha0]].
  destruct (C128_offset_images (IZR xsh) (IZR ysh) imsize width amp noiseamp xc yc randn ltac:(fold n; lia) Hw Hna Ha0) as [j1 [j2 [tl [E' [S1 [S2 [V1 [V2 _]]]]]]]].
  fold n in S1, S2. rewrite E in E'. injection E' as <- <- <-.
  destruct (C116_offset_error e (amap Fin im1) (amap Fin im2) err s us nt np false nf re ra mas mns huge n n t) as [map0 [t1 [t2 [t3 [ym [xm [u [s1 [s2 [x [y [rest [R1 [R2 [R3 [R4 R5]]]]]]]]]]]]]]]]; auto.
  exists map0, t1, t2, t3, ym, xm, u, s1, s2, x, y, rest. split; [exact R1|]. split; [exact R2|]. split; [exact R3|]. split; [exact R4|].
  intros Wy Wx bound wave wavex. destruct (R5 (IZR ysh) (IZR xsh) Wy Wx) as [By Bx].
  change (prep false (amap Fin im1) n n) with (fun y x => get im1 [y; x]) in By, Bx. change (prep false (amap Fin im2) n n) with (fun y x => get im2 [y; x]) in By, Bx.
  assert (SQ : sqrt (IZR (n * n)) = IZR n) by (rewrite mult_IZR; apply sqrt_square, IZR_le; lia). rewrite SQ in By, Bx.
  assert (W1 : wave = Cmod (sumC n (fun i => sumC n (fun j => Cmult (RtoC (get im1 [i; j])) (cis (- (2 * PI * (IZR i / IZR n)))))))).
  { unfold wave. f_equal. apply sumC_ext. intros i Hi. apply sumC_ext. intros j Hj. rewrite V1. reflexivity. }
  assert (W2 : wavex = Cmod (sumC n (fun i => sumC n (fun j => Cmult (RtoC (get im1 [i; j])) (cis (- (2 * PI * (IZR j / IZR n)))))))).
  { unfold wavex. f_equal. apply sumC_ext. intros i Hi. apply sumC_ext. intros j Hj. rewrite V1. reflexivity. }
  assert (N0 : 0 <= IZR n) by (apply IZR_le; lia).
  assert (BB : IZR n * (2 * mismatch n n (fun y x => get im1 [y; x]) (fun y x => get im2 [y; x]) (IZR ysh) (IZR xsh) + PI / u * norm2 n n (fun y x => get im1 [y; x])) <= bound).
  { unfold bound. apply Rmult_le_compat_l; auto. lra. }
  rewrite W1, W2. split; [exact (Rle_trans _ _ _ By BB)|exact (Rle_trans _ _ _ Bx BB)].
Qed.
Print Assumptions C128_test_shifts.

(** the default pair of the tests: 100x100, centre (50, 50), width 3, amplitude 1000, offset (8, -10): wrapped pixels are at
    least 40 pixels from both centres *)
Example C128_nonvacuous :
  forall randn, exists im1 im2 tol,
  make_offset_images 8 (-10) 100 3 1000 1 (PInt 50) (PInt 50) randn = Ok (im1, im2, Fin tol) /\ 0 < tol /\ away 100 50 8 40 /\ away 100 50 (-10) 40 /\
    get im1 [50; 50]%Z = 1000 /\ get im2 [40; 58]%Z = randn 40%Z 58%Z + 1000 /\ 0 < gaussian 1000 3 40 0 < 1.
Proof.
  intros randn. assert (T : truncR 100 = 100%Z).
  { unfold truncR. destruct (Rle_dec 0 100); [apply (floorR_IZR 100)|lra]. }
  destruct (C128_offset_images 8 (-10) 100 3 1000 1 50 50 randn) as [im1 [im2 [tol [E [S1 [S2 [V1 [V2 [V3 _]]]]]]]]]; try (rewrite T; lia); try lra.
  destruct (V3 ltac:(lra)) as [t [-> [_ Ht]]]. exists im1, im2, t. split; [exact E|]. split; [exact Ht|]. split; [unfold away; lia|]. split; [unfold away; lia|].
  assert (G0 : gaussian 1000 3 0 0 = 1000) by (unfold gaussian; replace (- (0 ^ 2 + 0 ^ 2) / (2 * 3 ^ 2)) with 0 by field; rewrite exp_0; ring).
  split; [rewrite V1; cbn; exact G0|]. split.
  - rewrite V2. replace (IZR (40 - 50) - -10) with 0 by (cbn; ring). replace (IZR (58 - 50) - 8) with 0 by (cbn; ring). rewrite G0. ring.
  - unfold gaussian. split; [apply Rmult_lt_0_compat; [lra|apply exp_pos]|].
    replace (- (40 ^ 2 + 0 ^ 2) / (2 * 3 ^ 2)) with (- (800 / 9)) by field. rewrite exp_Ropp.
    assert (L : 1 + 800 / 9 < exp (800 / 9)) by (apply exp_ineq1; lra).
    assert (L2 : exp (800 / 9) = exp (400 / 9) * exp (400 / 9)) by (rewrite <- exp_plus; f_equal; field).
    assert (L3 : 1 + 400 / 9 < exp (400 / 9)) by (apply exp_ineq1; lra).
    assert (L4 : 1000 < exp (800 / 9)) by (rewrite L2; assert (45 * 45 <= exp (400 / 9) * exp (400 / 9)) by (apply Rmult_le_compat; lra); lra).
    apply (Rmult_lt_reg_r (exp (800 / 9))); [apply exp_pos|]. rewrite Rmult_assoc, Rinv_l by (apply Rgt_not_eq, exp_pos). lra.
Qed.

(** *** C129 *)
(** the middle of an axis as make_extended takes it *)
Definition middle (n : Z) : R := if Z.even n then IZR (n / 2) - 1 else IZR n / 2.
(** the random amplitude given to a pixel of the frequency plane: a complex normal deviate times distance^(-powerlaw/2) *)
Definition amplitude (ny nx : Z) (powerlaw : R) (re im : Z -> Z -> R) (k l : Z) : C :=
  let d2 := (IZR k - middle ny) ^ 2 + (IZR l - middle nx) ^ 2 in
  if Req_EM_T d2 0 then RtoC 0 else Cmult (RtoC (Rpower d2 (- powerlaw / 4))) (re k l, im k l).

Lemma ext_centre_middle n : ext_centre n = middle n.
Proof.
  unfold ext_centre, middle. assert (E := Z_div_mod_eq_full n 2). rewrite Zmod_even in *. destruct (Z.even n).
  - replace (IZR n) with (2 * IZR (n / 2)) by (rewrite <- mult_IZR; f_equal; lia). lra.
  - lra.
Qed.
Lemma roll_sum n (g : Z -> C) a x : (0 < n)%Z ->
  sumC n (fun i => Cmult (g ((i - a) mod n)%Z) (cis (2 * PI * (IZR i * IZR x / IZR n)))) =
  Cmult (cis (2 * PI * (IZR a * IZR x / IZR n))) (sumC n (fun i => Cmult (g i) (cis (2 * PI * (IZR i * IZR x / IZR n))))).
Proof.
  intros Hn. rewrite <- (sumC_mod_shift n (fun i => Cmult (g i) (cis (2 * PI * (IZR i * IZR x / IZR n)))) (- a)%Z Hn). rewrite <- sumC_scal.
  apply sumC_ext. intros i Hi. change (i + - a)%Z with (i - a)%Z. rewrite Cmult_assoc, (Cmult_comm (cis _)), <- Cmult_assoc. f_equal. rewrite <- cis_plus.
  apply (cis_congr _ _ (((i - a) / n) * x)). assert (E := Z_div_mod_eq_full (i - a) n). set (q := ((i - a) / n)%Z) in *.
  replace ((i - a) mod n)%Z with (i - a - n * q)%Z by lia. rewrite !minus_IZR, !mult_IZR. field. apply IZR_neq0; lia.
Qed.
Lemma idft2_eq ny nx (b : list Z -> C) y x : (0 < ny)%Z -> (0 < nx)%Z ->
  idft [ny; nx] b [y; x] = Cmult (RtoC (/ IZR (ny * nx))) (sumC ny (fun k => Cmult (sumC nx (fun l => Cmult (b [k; l]) (cis (2 * PI * (IZR l * IZR x / IZR nx))))) (cis (2 * PI * (IZR k * IZR y / IZR ny))))).
Proof.
  intros Hy Hx. unfold idft. cbn [prodZ]. rewrite Z.mul_1_r. f_equal. rewrite sumNC_cons. apply sumC_ext. intros k Hk. rewrite sumNC_cons, <- sumC_scal_r. apply sumC_ext. intros l Hl.
  rewrite sumNC_nil. cbn [phZ]. rewrite <- Cmult_assoc, <- cis_plus. f_equal. f_equal. ring.
Qed.
Lemma idft2_roll ny nx (b : Z -> Z -> C) a c y x : (0 < ny)%Z -> (0 < nx)%Z ->
  Cmod (idft [ny; nx] (fun q => b ((fst (ix2 q) - a) mod ny)%Z ((snd (ix2 q) - c) mod nx)%Z) [y; x]) = Cmod (idft [ny; nx] (fun q => b (fst (ix2 q)) (snd (ix2 q))) [y; x]).
Proof.
  intros Hy Hx. rewrite !idft2_eq by auto. rewrite !Cmod_mult. f_equal. cbn [ix2 fst snd].
  rewrite (sumC_ext ny _ (fun k => Cmult ((fun k => Cmult (cis (2 * PI * (IZR c * IZR x / IZR nx))) (sumC nx (fun l => Cmult (b k l) (cis (2 * PI * (IZR l * IZR x / IZR nx)))))) ((k - a) mod ny)%Z) (cis (2 * PI * (IZR k * IZR y / IZR ny))))).
  - pose proof (roll_sum ny (fun k => Cmult (cis (2 * PI * (IZR c * IZR x / IZR nx))) (sumC nx (fun l => Cmult (b k l) (cis (2 * PI * (IZR l * IZR x / IZR nx)))))) a y Hy) as R. cbv beta in R. rewrite R. clear R. rewrite Cmod_mult, Cmod_cis, Rmult_1_l. rewrite (sumC_ext ny _ (fun i => Cmult (cis (2 * PI * (IZR c * IZR x / IZR nx))) (Cmult (sumC nx (fun l => Cmult (b i l) (cis (2 * PI * (IZR l * IZR x / IZR nx))))) (cis (2 * PI * (IZR i * IZR y / IZR ny)))))).
    + rewrite sumC_scal, Cmod_mult, Cmod_cis, Rmult_1_l. reflexivity.
    + intros i Hi. ring.
  - intros k Hk. cbv beta. rewrite (roll_sum nx (fun l => b ((k - a) mod ny)%Z l) c x Hx). reflexivity.
Qed.

Theorem C129_make_extended :
  forall imsize imsize2 powerlaw re im, let nx := truncR imsize in let ny := match imsize2 with None => nx | Some k => k end in
  (0 < ny)%Z -> (0 < nx)%Z ->
  exists img, make_extended imsize imsize2 powerlaw re im = Ok img /\ shape img = [ny; nx] /\
    (* the modulus of the inverse transform of the amplitudes, however they are rolled in the frequency plane, centred *)
    (forall a b y x, (0 <= y < ny)%Z -> (0 <= x < nx)%Z ->
       get img [y; x] = Cmod (idft [ny; nx] (fun q => amplitude ny nx powerlaw re im ((fst (ix2 q) - a) mod ny) ((snd (ix2 q) - b) mod nx)) [(y - ny / 2) mod ny; (x - nx / 2) mod nx]%Z)) /\
    (forall y x, 0 <= get img [y; x]) /\
    (* energy *)
    pixel_sum ny nx (fun y x => get img [y; x] ^ 2) = pixel_sum ny nx (fun k l => Cmod (amplitude ny nx powerlaw re im k l) ^ 2) / IZR (ny * nx).
Proof.
  intros imsize imsize2 p re im nx ny Hy Hx. unfold make_extended. fold nx. fold ny. destruct (Z.ltb_spec ny 0); [lia|]. destruct (Z.ltb_spec nx 0); [lia|]. cbn [orb].
  unfold check_fft. assert (P : pos_shapeb [ny; nx] = true) by (apply pos_shapeb_spec; repeat constructor; lia). rewrite P. cbn [bind].
  assert (AM : forall k l, (if Req_EM_T (ext_rr ny nx k l) 0 then RtoC 0 else Cplus (RtoC (re k l * Rpower (ext_rr ny nx k l) (- p / 2))) (Cmult (RtoC (im k l * Rpower (ext_rr ny nx k l) (- p / 2))) Ci)) = amplitude ny nx p re im k l).
  { intros k l. unfold amplitude, ext_rr. rewrite !ext_centre_middle. rewrite (Rplus_comm ((IZR l - middle nx) ^ 2)). set (d2 := (IZR k - middle ny) ^ 2 + (IZR l - middle nx) ^ 2).
    assert (D0 : 0 <= d2) by (apply Rplus_le_le_0_compat; apply pow2_ge_0).
    destruct (Req_EM_T (sqrt d2) 0) as [Z|N]; destruct (Req_EM_T d2 0) as [Z'|N']; try reflexivity.
    - exfalso. apply N'. apply sqrt_eq_0; auto.
    - exfalso. apply N. rewrite Z'. apply sqrt_0.
    - assert (R : Rpower (sqrt d2) (- p / 2) = Rpower d2 (- p / 4)).
      { rewrite <- (Rpower_sqrt d2) by lra. rewrite Rpower_mult. f_equal. field. }
      rewrite R. apply C_eq_ReIm; unfold Re, Im; cbn; ring. }
  set (img := mk2 ny nx _). exists img. split; [reflexivity|]. split; [reflexivity|].
  assert (V : forall y x, get img [y; x] = Cmod (idft [ny; nx] (fun q => amplitude ny nx p re im (fst (ix2 q)) (snd (ix2 q))) [(y - ny / 2) mod ny; (x - nx / 2) mod nx]%Z)).
  { intros y x. unfold img, fftshift2, np_fftshift, np_ifftn, g2. cbn [get mk2 shape]. f_equal. apply idft_ext. intros q Hq. apply inb2 in Hq. destruct Hq as [k [l [-> _]]]. cbn [get mk2 ix2 fst snd]. apply AM. }
  split; [|split].
  - intros a b y x _ _. rewrite V. symmetry. apply (idft2_roll ny nx (amplitude ny nx p re im)); auto.
  - intros y x. rewrite V. apply Cmod_ge_0.
  - set (B := fun q => amplitude ny nx p re im (fst (ix2 q)) (snd (ix2 q))).
    change (pixel_sum ny nx) with (sum2 ny nx).
    rewrite (sum2_ext ny nx _ (fun y x => (fun i j => Cmod (idft [ny; nx] B [i; j]) ^ 2) ((y + - (ny / 2)) mod ny)%Z ((x + - (nx / 2)) mod nx)%Z)) by (intros y x _ _; rewrite V; reflexivity).
    rewrite (sum2_shift ny nx (fun i j => Cmod (idft [ny; nx] B [i; j]) ^ 2) (- (ny / 2)) (- (nx / 2))) by auto.
    assert (Pp : pos_shape [ny; nx]) by (apply pos2; auto).
    assert (PV := parseval [ny; nx] (idft [ny; nx] B) (idft [ny; nx] B) Pp).
    rewrite (sumNC_ext [ny; nx] _ (fun k => RtoC (Cmod (B k) ^ 2))) in PV.
    2:{ intros k Hk. rewrite dft_idft by (auto; apply inb_length; auto). rewrite modl_small by auto. apply Cmult_conj. }
    rewrite (sumNC_ext [ny; nx] (fun y => Cmult (idft [ny; nx] B y) _) (fun y => RtoC (Cmod (idft [ny; nx] B y) ^ 2))) in PV by (intros; apply Cmult_conj).
    rewrite !sumNC_RtoC, <- RtoC_mult in PV. apply (f_equal Re) in PV. cbn [Re RtoC fst] in PV. rewrite !sum2_sumNR in PV.
    assert (N0 : IZR (ny * nx) <> 0) by (apply IZR_neq0; nia). cbn [prodZ] in PV. rewrite Z.mul_1_r in PV.
    change (fun k l => Cmod (amplitude ny nx p re im k l) ^ 2) with (fun k l => Cmod (B [k; l]) ^ 2). rewrite PV. field. auto.
Qed.
Print Assumptions C129_make_extended.

Lemma neg_mod_0 k n : (0 <= k < n)%Z -> ((- k) mod n = 0)%Z -> k = 0%Z.
Proof. intros H E. apply Z.mod_divide in E; [|lia]. destruct E as [q E]. assert (q = 0%Z) by nia. subst q. lia. Qed.
(** the docstring's PSD ~ r^(-powerlaw) is not what abs() returns: when the only nonzero amplitude is at one frequency (a wave, by
    the docstring all of the power there), the image is flat, and its own transform vanishes at every frequency but zero *)
Theorem C129_psd_refuted :
  forall imsize imsize2 powerlaw re im k0 l0, let nx := truncR imsize in let ny := match imsize2 with None => nx | Some k => k end in
  (0 <= k0 < ny)%Z -> (0 <= l0 < nx)%Z ->
  (forall k l, (k, l) <> (k0, l0) -> re k l = 0 /\ im k l = 0) ->
  exists img, make_extended imsize imsize2 powerlaw re im = Ok img /\
    (forall y x, (0 <= y < ny)%Z -> (0 <= x < nx)%Z -> get img [y; x] = Cmod (amplitude ny nx powerlaw re im k0 l0) / IZR (ny * nx)) /\
    (forall k l, (0 <= k < ny)%Z -> (0 <= l < nx)%Z -> (k, l) <> (0, 0)%Z -> dft [ny; nx] (fun q => RtoC (get img q)) [k; l] = RtoC 0).
Proof.
  intros imsize imsize2 p re im k0 l0 nx ny Hk Hl Hz. destruct (C129_make_extended imsize imsize2 p re im) as [img [E [S [V _]]]]; fold nx; fold ny; try lia.
  exists img. fold nx ny in E, S, V. split; [exact E|].
  assert (F : forall y x, (0 <= y < ny)%Z -> (0 <= x < nx)%Z -> get img [y; x] = Cmod (amplitude ny nx p re im k0 l0) / IZR (ny * nx)).
  { intros y x Hy Hx. rewrite (V 0%Z 0%Z y x Hy Hx). rewrite (idft2_roll ny nx (amplitude ny nx p re im)) by lia. rewrite idft2_eq by lia.
    assert (A0 : forall k l, (k, l) <> (k0, l0) -> amplitude ny nx p re im k l = RtoC 0).
    { intros k l Hne. unfold amplitude. destruct (Hz k l Hne) as [-> ->]. destruct (Req_EM_T _ 0); [reflexivity|]. change (0, 0) with (RtoC 0). ring. }
    cbn [ix2 fst snd]. rewrite (sumC_single ny _ k0) by (try lia; intros i Hi Hne; rewrite (sumC_single nx _ l0) by (try lia; intros j Hj Hj'; rewrite A0 by congruence; ring); rewrite A0 by congruence; ring).
    rewrite (sumC_single nx _ l0) by (try lia; intros j Hj Hne; rewrite A0 by congruence; ring).
    rewrite !Cmod_mult, !Cmod_cis, !Rmult_1_r, Cmod_R, Rabs_pos_eq; [unfold Rdiv; ring|]. left. apply Rinv_0_lt_compat, IZR_lt. nia. }
  split; [exact F|].
  intros k l Hk' Hl' Hne. unfold dft. set (c := Cmod (amplitude ny nx p re im k0 l0) / IZR (ny * nx)) in *.
  rewrite sumNC_cons. rewrite (sumC_ext ny _ (fun i => Cmult (cis (2 * PI * (IZR i * IZR (- k) / IZR ny))) (sumC nx (fun j => Cmult (RtoC c) (cis (2 * PI * (IZR j * IZR (- l) / IZR nx))))))).
  - rewrite sumC_scal_r. rewrite sumC_scal. rewrite !char_sum by lia.
    destruct (Z.eqb_spec ((- k) mod ny) 0) as [Ek|Nk]; destruct (Z.eqb_spec ((- l) mod nx) 0) as [El|Nl]; try ring.
    exfalso. apply Hne. f_equal; [exact (neg_mod_0 k ny Hk' Ek)|exact (neg_mod_0 l nx Hl' El)].
  - intros i Hi. rewrite sumNC_cons, <- sumC_scal. apply sumC_ext. intros j Hj. rewrite sumNC_nil. rewrite F by auto. cbn [phZ]. rewrite Cmult_comm.
    rewrite (Cmult_comm (RtoC c)), Cmult_assoc, <- cis_plus. f_equal. f_equal. rewrite !opp_IZR. unfold Rdiv. ring.
Qed.
Print Assumptions C129_psd_refuted.

(** the one pixel left at zero exists only when both sizes are even *)
Theorem C129_zero_pixel :
  forall ny nx powerlaw re im k l, (0 < ny)%Z -> (0 < nx)%Z -> re k l <> 0 ->
  (amplitude ny nx powerlaw re im k l = RtoC 0 <-> Z.even ny = true /\ Z.even nx = true /\ k = (ny / 2 - 1)%Z /\ l = (nx / 2 - 1)%Z).
Proof.
  intros ny nx p re im k l Hy Hx Hr. unfold amplitude.
  assert (Z0 : forall n j, IZR j - middle n = 0 <-> Z.even n = true /\ j = (n / 2 - 1)%Z).
  { intros n j. unfold middle. destruct (Z.even n) eqn:En.
    - rewrite <- minus_IZR, <- minus_IZR. split; [intros H; apply eq_IZR in H; split; [auto|lia]|intros [_ ->]; f_equal; lia].
    - split; [|intros [H _]; discriminate]. intros H. exfalso. assert (Q : IZR (2 * j) = IZR n) by (rewrite mult_IZR; lra). apply eq_IZR in Q. subst n. rewrite Z.even_mul in En. discriminate. }
  assert (D : (IZR k - middle ny) ^ 2 + (IZR l - middle nx) ^ 2 = 0 <-> IZR k - middle ny = 0 /\ IZR l - middle nx = 0).
  { split; [|intros [-> ->]; ring]. intros H. assert (P1 := pow2_ge_0 (IZR k - middle ny)). assert (P2 := pow2_ge_0 (IZR l - middle nx)).
    assert (E1 : (IZR k - middle ny) ^ 2 = 0) by lra. assert (E2 : (IZR l - middle nx) ^ 2 = 0) by lra.
    cbn [pow] in E1, E2. rewrite Rmult_1_r in E1, E2. split; [apply Rsqr_0_uniq, E1|apply Rsqr_0_uniq, E2]. }
  destruct (Req_EM_T _ 0) as [E|N].
  - split; [|reflexivity]. intros _. apply D in E. destruct E as [E1 E2]. apply Z0 in E1. apply Z0 in E2. tauto.
  - split.
    + intros H. exfalso. apply (f_equal Re) in H. cbn in H. rewrite Rmult_0_l, Rminus_0_r in H. apply Rmult_integral in H. destruct H as [H|H]; [|contradiction].
      assert (P := exp_pos (- p / 4 * ln ((IZR k - middle ny) ^ 2 + (IZR l - middle nx) ^ 2))). unfold Rpower in H. cbn [pow] in H, P. lra.
    + intros H. exfalso. apply N. apply D. rewrite !Z0. tauto.
Qed.
Print Assumptions C129_zero_pixel.

(** 4x6, one wave at frequency index (1, 4): distance 2 from the middle (1, 2); amplitude (3 + 4i) * 2^-1, modulus 5/2 *)
Example C129_nonvacuous :
  exists img, make_extended 6 (Some 4%Z) 2 (fun k l => if ((k =? 1) && (l =? 4))%Z then 3 else 0) (fun k l => if ((k =? 1) && (l =? 4))%Z then 4 else 0) = Ok img /\
    shape img = [4; 6]%Z /\ get img [3; 2]%Z = 5 / 48 /\ amplitude 4 6 2 (fun _ _ => 1) (fun _ _ => 1) 1 2 = RtoC 0 /\ amplitude 3 6 2 (fun _ _ => 1) (fun _ _ => 1) 1 2 <> RtoC 0.
Proof.
  assert (T : truncR 6 = 6%Z) by (unfold truncR; destruct (Rle_dec 0 6); [apply (floorR_IZR 6)|lra]).
  set (re := fun k l : Z => if ((k =? 1) && (l =? 4))%Z then 3 else 0). set (im := fun k l : Z => if ((k =? 1) && (l =? 4))%Z then 4 else 0).
  destruct (C129_psd_refuted 6 (Some 4%Z) 2 re im 1 4) as [img [E [F _]]]; try (rewrite ?T; lia).
  { intros k l H. unfold re, im. destruct (Z.eqb_spec k 1); destruct (Z.eqb_spec l 4); cbn [andb]; auto. subst. contradiction. }
  rewrite T in F. exists img. split; [exact E|].
  destruct (C129_make_extended 6 (Some 4%Z) 2 re im) as [img' [E' [S' _]]]; try (rewrite ?T; lia). rewrite E in E'. injection E' as <-. rewrite T in S'. split; [exact S'|].
  split; [|split].
  - rewrite (F 3 2)%Z by lia. unfold amplitude, middle. cbn [Z.even]. change (4 / 2)%Z with 2%Z. change (6 / 2)%Z with 3%Z. cbv zeta.
    assert (Q : (1 - (2 - 1)) ^ 2 + (4 - (3 - 1)) ^ 2 = 4) by ring. rewrite Q. destruct (Req_EM_T 4 0); [lra|]. unfold re, im. cbn [Z.eqb andb Pos.eqb].
    rewrite Cmod_mult, Cmod_R. replace (- (2) / 4) with (- / 2) by field. rewrite Rpower_Ropp, Rpower_sqrt by lra. replace (sqrt 4) with 2 by (replace 4 with (2 * 2) by ring; rewrite sqrt_square; lra).
    rewrite Rabs_pos_eq by lra. unfold Cmod. cbn [fst snd]. replace (3 ^ 2 + 4 ^ 2) with (5 * 5) by ring. rewrite sqrt_square by lra. change (4 * 6)%Z with 24%Z. field.
  - apply (C129_zero_pixel 4 6 2 (fun _ _ => 1) (fun _ _ => 1) 1 2 ltac:(lia) ltac:(lia) ltac:(lra)). repeat split.
  - intros H. apply (C129_zero_pixel 3 6 2 (fun _ _ => 1) (fun _ _ => 1) 1 2 ltac:(lia) ltac:(lia) ltac:(lra)) in H. destruct H as [H _]. discriminate.
Qed.
