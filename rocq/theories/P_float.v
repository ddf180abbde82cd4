(** C112: double-precision FFTs are accurate enough for C103 and C111 *)
From Coq Require Import ZArith Lia List Reals Lra Bool Permutation.
From Coquelicot Require Import Complex.
From Flocq Require Import Core.
From Verif Require Import Base NDim DFT Kernel Num Py Sum2 M_fast_ffts M_shift M_scale M_zoom M_upsample M_convolve M_correlate Arg M_chi2 M_xcorr M_register M_rounding M_rounding2 M_float
  Spec L_shift L_scale L_upsample L_convolve Spec2 Spec3 Spec4 L_correlate L_chi2 L_zoom L_fshift L_register L_register2 L_register3 L_chi2shift L_iterzoom2 L_xcorr L_float
  P_xcorr P_xcorr2 P_xcorr3 P_register P_noise P_chi2map P_chi2shift P_rounding P_rounding2.
Import ListNotations.
Open Scope R_scope.

Lemma pos_sizes pss : Forall pos_shape pss -> pos_shape (map prodZ pss).
Proof. intros Hp. unfold pos_shape. apply Forall_forall. intros n Hn. apply in_map_iff in Hn. destruct Hn as [ps [<- Q]]. apply prodZ_pos. rewrite Forall_forall in Hp. auto. Qed.
Lemma ifft_accurate q pss (F : arr C -> arr C) : Forall pos_shape pss -> (forall a, shape a = map prodZ pss -> computed_ifft q pss a (F a)) ->
  forall a, shape a = map prodZ pss -> shape (F a) = map prodZ pss /\
    forall x, inb (map prodZ pss) x -> Cmod (Cminus (get (F a) x) (idft (map prodZ pss) (get a) x)) <= ((1 + u64) ^ (roundingsN q pss + 4) - 1) * (l1 (map prodZ pss) (get a) / IZR (prodZ (map prodZ pss))).
Proof.
  intros Hp HI. set (m := roundingsN q pss). set (sh := map prodZ pss). assert (Psh : pos_shape sh) by (apply pos_sizes; auto).
  assert (P := prodZ_pos sh Psh). assert (P' : 0 < IZR (prodZ sh)) by (apply IZR_lt; lia).
  assert (G := up_ge1 m). assert (G4 := up_ge1 (m + 4)).
  intros a Ha. destruct (HI a Ha) as [S [X [E Z]]]. split; [rewrite S; exact Ha|]. intros x Hx. rewrite Ha in Z. fold sh in Z.
    assert (Q := fftN_err q 1 pss (or_introl eq_refl) Hp _ _ E x Hx). fold m sh in Q.
    assert (Z1 := scaled_err (prodZ sh) (X x) (get (F a) x) P (Z x Hx)).
    assert (D : idft sh (get a) x = Cmult (RtoC (/ IZR (prodZ sh))) (dftN 1 sh (get a) x)).
    { unfold idft, dftN. f_equal. apply sumNC_ext. intros y _. rewrite Rmult_1_l. rewrite phZ_sym. reflexivity. }
    rewrite D. set (N := IZR (prodZ sh)) in *. assert (B := Cmod_near _ _ _ _ Q (dftN_le 1 sh (get a) x)). assert (L0 := l1_nonneg sh (get a)).
    assert (G2 := up_ge1 2). assert (I0 : 0 < / N) by (apply Rinv_0_lt_compat; auto).
    assert (B2 : Cmod (X x) / N <= (1 + u64) ^ m * l1 sh (get a) / N) by (unfold Rdiv; apply Rmult_le_compat_r; lra).
    assert (B3 := Rmult_le_compat_l ((1 + u64) ^ 2 - 1) _ _ ltac:(lra) B2).
    assert (B4 : Cmod (Cminus (Cmult (RtoC (/ N)) (X x)) (Cmult (RtoC (/ N)) (dftN 1 sh (get a) x))) <= ((1 + u64) ^ m - 1) * l1 sh (get a) / N).
    { replace (Cminus (Cmult (RtoC (/ N)) (X x)) (Cmult (RtoC (/ N)) (dftN 1 sh (get a) x))) with (Cmult (RtoC (/ N)) (Cminus (X x) (dftN 1 sh (get a) x))) by ring.
      rewrite Cmod_mult, Cmod_R, Rabs_right by lra. unfold Rdiv. rewrite Rmult_comm. apply Rmult_le_compat_r; lra. }
    match goal with |- Cmod (Cminus ?X ?Y) <= _ => set (U := X) in *; set (V := Y) in * end. set (W := Cmult (RtoC (/ N)) (X x)) in *.
    replace (Cminus U V) with (Cplus (Cminus U W) (Cminus W V)) by ring.
    refine (Rle_trans _ _ _ (Cmod_triangle _ _) _).
    assert (M : (1 + u64) ^ 2 * (1 + u64) ^ m <= (1 + u64) ^ (m + 4)) by (rewrite <- pow_add; apply up_mono; lia).
    assert (LN : 0 <= l1 sh (get a) / N) by (apply Rmult_le_pos; lra).
    assert (M2 := Rmult_le_compat_r _ _ _ LN M). unfold Rdiv in *. lra.
Qed.

(** *** every mixed-radix FFT in double precision is [accurate] *)
Theorem C112_fft_is_accurate :
  forall q pss A, Forall pos_shape pss -> double_arith q pss A ->
  accurate ((1 + u64) ^ (roundingsN q pss + 4) - 1) (map prodZ pss) A.
Proof.
  intros q pss A Hp [HF [HI HM]]. set (m := roundingsN q pss). set (sh := map prodZ pss).
  assert (Psh : pos_shape sh). { unfold sh, pos_shape. apply Forall_forall. intros n Hn. apply in_map_iff in Hn. destruct Hn as [ps [<- Q]]. apply prodZ_pos. rewrite Forall_forall in Hp. auto. }
  assert (P := prodZ_pos sh Psh). assert (P' : 0 < IZR (prodZ sh)) by (apply IZR_lt; lia).
  assert (G := up_ge1 m). assert (G4 := up_ge1 (m + 4)). split; [lra|]. split; [|split].
  - intros a Ha. destruct (HF a Ha) as [S E]. split; [rewrite S; exact Ha|]. intros k Hk.
    assert (Q := fftN_err q (-1) pss (or_intror eq_refl) Hp _ _ E k Hk). unfold dftN in Q. fold m in Q.
    assert (D : dft sh (get a) k = sumNC (map prodZ pss) (fun y => Cmult (get a y) (cis (-1 * (2 * PI * phZ (map prodZ pss) k y))))).
    { unfold dft. apply sumNC_ext. intros y _. fold sh. replace (-1 * (2 * PI * phZ sh k y)) with (- (2 * PI * phZ sh k y)) by ring. reflexivity. }
    rewrite D. refine (Rle_trans _ _ _ Q _). apply Rmult_le_compat_r; [apply l1_nonneg|]. assert (M := up_mono m (m + 4) ltac:(lia)). lra.
  - apply ifft_accurate; auto.
  - intros z w. assert (Q := fl_cdot_err _ _ (HM z w)). cbn [csum cabs fold_right fst snd length] in Q. rewrite Rplus_0_r in Q.
    replace (Cplus (Cmult z w) (RtoC 0)) with (Cmult z w) in Q by ring. refine (Rle_trans _ _ _ Q _).
    apply Rmult_le_compat_r; [apply Rmult_le_pos; apply Cmod_ge_0|]. assert (M := up_mono 4 (m + 4) ltac:(lia)). change (4 * 1)%nat with 4%nat. lra.
Qed.
Print Assumptions C112_fft_is_accurate.

Lemma cis_rnd t' : Cmod (Cminus (rnd64 (cos t'), rnd64 (sin t')) (cis t')) <= u64.
Proof.
  assert (U := u64_pos). assert (C1 := rnd64_err (cos t')). assert (C2 := rnd64_err (sin t')).
      unfold Cmod, cis. cbn [fst snd Cminus Cplus Copp]. rewrite <- (sqrt_pow2 u64) by lra. apply sqrt_le_1_alt.
      assert (D1 : (rnd64 (cos t') + - cos t') ^ 2 <= u64 ^ 2 * cos t' ^ 2).
      { rewrite <- (pow2_abs (_ + _)), <- (pow2_abs (cos t')), <- Rpow_mult_distr. apply pow_incr. split; [apply Rabs_pos|exact C1]. }
      assert (D2 : (rnd64 (sin t') + - sin t') ^ 2 <= u64 ^ 2 * sin t' ^ 2).
      { rewrite <- (pow2_abs (_ + _)), <- (pow2_abs (sin t')), <- Rpow_mult_distr. apply pow_incr. split; [apply Rabs_pos|exact C2]. }
      assert (D3 := sin2_cos2 t'). unfold Rsqr in D3.
      assert (D4 : u64 ^ 2 * cos t' ^ 2 + u64 ^ 2 * sin t' ^ 2 = u64 ^ 2 * (sin t' * sin t' + cos t' * cos t')) by ring. rewrite D3 in D4. lra.
Qed.
(** the hypotheses on eps say how much is lost in the transform, in the exponentials and in the dot products *)
Theorem C112_zoom_is_accurate :
  forall q pss B T eps, Forall pos_shape pss -> double_zarith q pss B ->
  (1 + u64) ^ (roundingsN q pss + 4) - 1 <= eps -> u64 + T * ((1 + u64) ^ 5 - 1) <= eps ->
  (forall n, In n (map prodZ pss) -> (1 + u64) ^ (4 * Z.to_nat n) - 1 <= eps) ->
  accurate_zoom eps T (map prodZ pss) B.
Proof.
  intros q pss B T eps Hp [HI [HC [HD H0]]] E1 E2 E3. assert (U := u64_pos).
  assert (e0 : 0 <= eps) by (assert (Q := up_ge1 (roundingsN q pss + 4)); lra).
  split; [exact e0|]. split; [|split].
  - intros a Ha.
    destruct (ifft_accurate q pss (za_ifft B) Hp HI a Ha) as [S Q]. split; [exact S|]. intros x Hx. refine (Rle_trans _ _ _ (Q x Hx) _).
    apply Rmult_le_compat_r; auto. apply Rmult_le_pos; [apply l1_nonneg|]. left. apply Rinv_0_lt_compat. apply IZR_lt. apply prodZ_pos. apply pos_sizes; auto.
  - intros t Ht. destruct (HC t) as [t' [H1 ->]]. refine (Rle_trans _ _ _ _ E2).
    assert (L := cis_lip t' t).
    assert (R1 := cis_rnd t').
    set (z := (rnd64 (cos t'), rnd64 (sin t'))) in *.
    replace (Cminus z (cis t)) with (Cplus (Cminus z (cis t')) (Cminus (cis t') (cis t))) by ring.
    refine (Rle_trans _ _ _ (Cmod_triangle _ _) _). assert (G := up_ge1 5).
    assert (H2 := Rmult_le_compat_l ((1 + u64) ^ 5 - 1) _ _ ltac:(lra) Ht). lra.
  - intros n a b Hin Hn. destruct (Z.eq_dec n 0) as [->|Hn0].
    + rewrite H0, sumC_0, sumR_0 by lia. replace (Cminus (RtoC 0) (RtoC 0)) with (RtoC 0) by ring. rewrite Cmod_0. lra.
    + refine (Rle_trans _ _ _ (fl_cdot_range n a b _ (HD n a b ltac:(lia))) _). apply Rmult_le_compat_r; auto.
      apply sumR_nonneg. intros. apply Rmult_le_pos; apply Cmod_ge_0.
Qed.
Print Assumptions C112_zoom_is_accurate.

Lemma inb_pos sh k : inb sh k -> pos_shape sh.
Proof. revert k; induction sh as [|n sh IH]; intros [|x k] H; simpl in H; try tauto; [constructor|]. apply pos_shape_cons. split; [lia|]. apply (IH k); tauto. Qed.
Lemma accurate_weaken eps eps' sh A : accurate eps sh A -> eps <= eps' -> accurate eps' sh A.
Proof.
  intros [H0 [HF [HI HM]]] H. split; [lra|]. split; [|split].
  - intros a Ha. destruct (HF a Ha) as [S Q]. split; [exact S|]. intros k Hk. refine (Rle_trans _ _ _ (Q k Hk) _). apply Rmult_le_compat_r; auto. apply l1_nonneg.
  - intros a Ha. destruct (HI a Ha) as [S Q]. split; [exact S|]. intros k Hk. assert (Q' := Q k Hk). destruct (Rlt_le_dec (l1 sh (get a) / IZR (prodZ sh)) 0) as [L|L].
    + exfalso. assert (C0 := Cmod_ge_0 (Cminus (get (ar_ifft A a) k) (idft sh (get a) k))). assert (0 < prodZ sh)%Z by (apply prodZ_pos; apply (inb_pos sh k Hk)).
      assert (0 <= l1 sh (get a) / IZR (prodZ sh)); [|lra]. apply Rmult_le_pos; [apply l1_nonneg|left; apply Rinv_0_lt_compat, IZR_lt; auto].
    + refine (Rle_trans _ _ _ Q' _). apply Rmult_le_compat_r; auto.
  - intros z w. refine (Rle_trans _ _ _ (HM z w) _). apply Rmult_le_compat_r; auto. apply Rmult_le_pos; apply Cmod_ge_0.
Qed.
(** *** how large the bound is: about 2 m 2^-53 for m roundings *)
Theorem C112_roundoff :
  forall m : nat, INR m * u64 <= 1 / 2 -> (1 + u64) ^ m - 1 <= 2 * u64 * INR m.
Proof.
  intros m Hm. assert (U := u64_pos).
  assert (B : forall n, (1 + u64) ^ n * (1 - INR n * u64) <= 1).
  { induction n as [|n IH]; [simpl; lra|]. rewrite S_INR. cbn [pow]. assert (P0 := up_ge1 n). assert (N0 := pos_INR n).
    refine (Rle_trans _ _ _ _ IH).
    replace ((1 + u64) * (1 + u64) ^ n * (1 - (INR n + 1) * u64)) with ((1 + u64) ^ n * (1 - INR n * u64 - (INR n + 1) * u64 ^ 2)) by ring.
    apply Rmult_le_compat_l; [lra|]. assert (0 <= (INR n + 1) * u64 ^ 2) by (apply Rmult_le_pos; [lra|apply pow2_ge_0]). lra. }
  specialize (B m). assert (P0 := up_ge1 m). set (X := (1 + u64) ^ m) in *. set (y := INR m * u64) in *.
  assert (N0 : 0 <= y) by (apply Rmult_le_pos; [apply pos_INR|lra]).
  assert (K : X <= 2).
  { assert (Q : X * (1 / 2) <= X * (1 - y)) by (apply Rmult_le_compat_l; lra). lra. }
  replace (2 * u64 * INR m) with (2 * y) by (unfold y; ring).
  assert (Q : X * y <= 2 * y) by (apply Rmult_le_compat_r; lra). lra.
Qed.
Print Assumptions C112_roundoff.

(** *** register_images and chi2_shift in double precision *)
Theorem C112_register_images :
  forall q psy psx A A' has_fftw im1 im2 ret_err zeromean maxoff nthreads use_np dy dx,
  pos_shape psy -> pos_shape psx -> double_arith q [psy; psx] A -> double_arith q [psy; psx] A' ->
  let ny := prodZ psy in let nx := prodZ psx in let m := (roundings1 q psy + roundings1 q psx + 4)%nat in
  INR m * u64 <= 1 / 2 ->
  shape im1 = [ny; nx] -> shape im2 = [ny; nx] -> mo_ok maxoff -> within maxoff (centred ny dy) -> within maxoff (centred nx dx) ->
  let f := prep zeromean im1 ny nx in let g := prep zeromean im2 ny nx in
  (forall s t, ((s - dy) mod ny <> 0 \/ (t - dx) mod nx <> 0)%Z ->
     Rabs (ccf ny nx f g s t) + 2 * corr_rounding (2 * u64 * INR m) f g ny nx < Rabs (ccf ny nx f g dy dx)) ->
  register_images_with A A' im1 im2 ret_err zeromean maxoff = Ok (nums [IZR (centred nx dx); IZR (centred ny dy)] ++ err_out ret_err 1) /\
  register_images has_fftw im1 im2 1 false ret_err zeromean maxoff nthreads use_np = register_images_with A A' im1 im2 ret_err zeromean maxoff.
Proof.
  intros q psy psx A A' hf im1 im2 re zm mo nt np dy dx Py Px HA HA' ny nx m Hm H1 H2 Hmo Wy Wx f g G.
  assert (Hp : Forall pos_shape [psy; psx]) by (repeat constructor; auto).
  assert (E : forall X, double_arith q [psy; psx] X -> accurate (2 * u64 * INR m) [ny; nx] X).
  { intros X HX. apply (accurate_weaken ((1 + u64) ^ m - 1)); [|apply C112_roundoff; auto].
    assert (Q := C112_fft_is_accurate q [psy; psx] X Hp HX). cbn [roundingsN fold_right map] in Q. rewrite Nat.add_0_r in Q. exact Q. }
  apply (C103_register_same_answer A A' (2 * u64 * INR m) hf im1 im2 re zm mo nt np ny nx dy dx); auto; apply prodZ_pos; auto.
Qed.
Print Assumptions C112_register_images.

(** the larger of the numbers of roundings in the transforms and in a dot product along an axis *)
Definition most_roundings (q : nat) (psy psx : list Z) : nat :=
  Nat.max (roundings1 q psy + roundings1 q psx + 4) (4 * Z.to_nat (Z.max (prodZ psy) (prodZ psx))).

Theorem C112_chi2_shift :
  forall q psy psx A B T e im1 im2 err us nthreads use_np zeromean nfitted ret_err ret_arr mas mns allow_huge u s1 s2 t map0 t1 t2 t3 ym xm i j,
  pos_shape psy -> pos_shape psx -> double_arith q [psy; psx] A -> double_zarith q [psy; psx] B ->
  let ny := prodZ psy in let nx := prodZ psx in let m := most_roundings q psy psx in
  INR m * u64 <= 1 / 2 ->
  shape im1 = [ny; nx] -> shape im2 = [ny; nx] -> err_ok err ny nx -> size_ok e allow_huge ny nx ->
  explicit_grid us ny nx u s1 s2 -> phase_room T ny s1 u -> phase_room T nx s2 u -> one_sigma e t ->
  chi2n_map e im1 im2 err BWrap nthreads zeromean use_np true false allow_huge = Ok (Chi2All map0 t1 t2 t3) ->
  (0 <= ym < ny)%Z -> (0 <= xm < nx)%Z -> (0 <= i < s1)%Z -> (0 <= j < s2)%Z ->
  let eps := 2 * u64 * (INR m + 5 * T + 1) in
  let d := chi2_rounding eps zeromean err im1 im2 ny nx in let D := zoom_rounding eps zeromean err im1 im2 ny nx map0 in
  let chi2_node := fun a b => chi2_at ny nx map0 (grid_shift ny ym s1 u a) (grid_shift nx xm s2 u b) in
  (forall k l, (0 <= k < ny)%Z -> (0 <= l < nx)%Z -> (k, l) <> (ym, xm) -> g2 map0 ym xm + 2 * d < g2 map0 k l) ->
  (forall a b, (0 <= a < s1)%Z -> (0 <= b < s2)%Z -> (a, b) <> (i, j) -> chi2_node i j + 2 * D < chi2_node a b) ->
  exists rest rest',
    chi2_shift_with A B e im1 im2 err us BWrap zeromean nfitted false ret_err ret_arr mas mns allow_huge =
      Ok (RNum (grid_shift nx xm s2 u j) :: RNum (grid_shift ny ym s1 u i) :: rest) /\
    chi2_shift e im1 im2 err us BWrap nthreads use_np zeromean nfitted false ret_err ret_arr mas mns allow_huge =
      Ok (RNum (grid_shift nx xm s2 u j) :: RNum (grid_shift ny ym s1 u i) :: rest').
Proof.
  intros q psy psx A B T e im1 im2 err us nt np zm nf re rc mas mns huge u s1 s2 t map0 t1 t2 t3 ym xm i j Py Px HA HB ny nx m Hm H1 H2 He Hh Hg HTy HTx Ht Em Hym Hxm Hi Hj eps d D node G1 G2.
  assert (Hp : Forall pos_shape [psy; psx]) by (repeat constructor; auto). assert (U := u64_pos).
  assert (Hy : (0 < ny)%Z) by (apply prodZ_pos; auto). assert (Hx : (0 < nx)%Z) by (apply prodZ_pos; auto).
  destruct (explicit_window_ok e us ny nx u s1 s2 (g2 map0) mas mns nf Hy Hx Hg) as [_ [Hu [Hs1 Hs2]]].
  assert (T0 : 0 <= T).
  { refine (Rle_trans _ _ _ _ HTy). apply Rmult_le_pos; [left; apply PI_RGT_0|]. assert (0 < IZR ny) by (apply IZR_lt; auto).
    assert (0 < IZR s1 / (2 * u)) by (apply Rmult_lt_0_compat; [apply IZR_lt; auto|apply Rinv_0_lt_compat; lra]). lra. }
  assert (UM : forall n, (n <= m)%nat -> (1 + u64) ^ n - 1 <= 2 * u64 * INR m).
  { intros n Hn. assert (Q := C112_roundoff m Hm). assert (Q2 := up_mono n m Hn). lra. }
  assert (E0 : 2 * u64 * INR m <= eps) by (unfold eps; apply Rmult_le_compat_l; lra).
  assert (F5 : (1 + u64) ^ 5 - 1 <= 10 * u64).
  { assert (Q := C112_roundoff 5). change (INR 5) with (1 + 1 + 1 + 1 + 1) in Q. assert (Q3 : (1 + 1 + 1 + 1 + 1) * u64 <= 1 / 2); [|specialize (Q Q3); lra].
    rewrite u64_val. apply (Rmult_le_reg_r (2 ^ 53)); [apply pow_lt; lra|]. rewrite Rmult_assoc, Rinv_l by (apply pow_nonzero; lra). cbn [pow]. lra. }
  assert (M1 : (roundings1 q psy + (roundings1 q psx + 0) + 4 <= m)%nat) by (unfold m, most_roundings; lia).
  assert (EA : accurate eps [ny; nx] A).
  { apply (accurate_weaken ((1 + u64) ^ (roundings1 q psy + (roundings1 q psx + 0) + 4) - 1)).
    - exact (C112_fft_is_accurate q [psy; psx] A Hp HA).
    - refine (Rle_trans _ _ _ (UM _ M1) E0). }
  assert (EB : accurate_zoom eps T [ny; nx] B).
  { apply (C112_zoom_is_accurate q [psy; psx] B T eps Hp HB).
    - refine (Rle_trans _ _ _ (UM _ M1) E0).
    - assert (K := Rmult_le_compat_l T _ _ T0 F5). unfold eps. assert (0 <= INR m) by apply pos_INR. assert (0 <= u64 * INR m) by (apply Rmult_le_pos; lra). lra.
    - intros n Hn. refine (Rle_trans _ _ _ (UM _ _) E0). unfold m, most_roundings. fold ny nx. cbn in Hn. destruct Hn as [<- | [<- | []]]; fold ny nx; lia. }
  apply (C111_chi2_shift_same_answer A B eps T e im1 im2 err us nt np zm nf re rc mas mns huge ny nx u s1 s2 t map0 t1 t2 t3 ym xm i j); auto.
Qed.
Print Assumptions C112_chi2_shift.

(** ** such arithmetic exists: one concrete choice of evaluation order *)
Fixpoint dotf (l : list (R * R)) : R :=
  match l with
  | [] => 0
  | (x, y) :: l' => match l' with [] => rnd64 (x * y) | _ => rnd64 (x * y + dotf l') end
  end.
Definition cdotf (l : list (C * C)) : C := (dotf (re_pairs l), dotf (im_pairs l)).
Definition twf (t : R) : C := (rnd64 (cos t), rnd64 (sin t)).
Fixpoint fft1f (sg : R) (ps : list Z) (x : Z -> C) : Z -> C :=
  match ps with
  | [] => fun _ => x 0%Z
  | p :: qs => fun k => cdotf (map (fun r => (twf (sg * (2 * PI * (IZR k * IZR r / IZR (p * prodZ qs)))), fft1f sg qs (fun m => x (r + p * m)%Z) (k mod prodZ qs)%Z)) (zrange p))
  end.
Fixpoint fftNf (sg : R) (pss : list (list Z)) (a : list Z -> C) : list Z -> C :=
  match pss with
  | [] => fun _ => a []
  | ps :: pss' => fun l => match l with [] => RtoC 0 | k :: l' => fft1f sg ps (fun i => fftNf sg pss' (fun l => a (i :: l)) l') k end
  end.
Definition float_fft (pss : list (list Z)) (a : arr C) : arr C := Arr (shape a) (fftNf (-1) pss (get a)).
Definition float_ifft (pss : list (list Z)) (a : arr C) : arr C :=
  Arr (shape a) (fun x => let z := fftNf 1 pss (get a) x in let r := rnd64 (/ IZR (prodZ (shape a))) in (rnd64 (r * Re z), rnd64 (r * Im z))).
Definition float_arith (pss : list (list Z)) : arith := Arith (float_fft pss) (float_ifft pss) (fun z w => cdotf [(z, w)]).
Definition float_zarith (pss : list (list Z)) : zarith := ZArith (float_ifft pss) twf (fun n a b => cdotf (map (fun k => (a k, b k)) (zrange n))).

Lemma dotf_ok l : l <> [] -> fl_dot l (dotf l).
Proof.
  induction l as [|[x y] l IH]; [congruence|]. intros _. destruct l as [|p l].
  - apply fl_mul.
  - change (dotf ((x, y) :: p :: l)) with (rnd64 (x * y + dotf (p :: l))). apply (fl_fma _ (p :: l)); [apply Permutation_refl|]. apply IH. discriminate.
Qed.
Lemma cdotf_ok l : l <> [] -> fl_cdot l (cdotf l).
Proof. destruct l as [|[z w] l]; [congruence|]. intros _. split; apply dotf_ok; cbn; discriminate. Qed.
Lemma zrange_ne n : (0 < n)%Z -> zrange n <> [].
Proof. intros Hn E. assert (L : Datatypes.length (zrange n) = Z.to_nat n) by (unfold zrange; rewrite map_length, seq_length; reflexivity). rewrite E in L. cbn in L. lia. Qed.
Lemma cdotf_range n a b : (0 < n)%Z -> fl_cdot (map (fun k : Z => (a k, b k)) (zrange n)) (cdotf (map (fun k => (a k, b k)) (zrange n))).
Proof. intros Hn. apply cdotf_ok. intros E. apply map_eq_nil in E. revert E. apply zrange_ne; auto. Qed.
Lemma twf_ok t : Cmod (Cminus (twf t) (cis t)) <= u64.
Proof. apply cis_rnd. Qed.
Lemma fft1f_ok sg ps x : pos_shape ps -> fft1 1 sg ps x (fft1f sg ps x).
Proof.
  revert x; induction ps as [|p ps IH]; intros x Hp; [cbn; reflexivity|].
  apply pos_shape_cons in Hp. destruct Hp as [Hp Hps]. cbn [fft1].
  exists (fun r => fft1f sg ps (fun m => x (r + p * m)%Z)). split; [intros r _; apply IH; auto|].
  intros k _. exists (fun r => twf (sg * (2 * PI * (IZR k * IZR r / IZR (p * prodZ ps))))). split.
  - intros r _. refine (Rle_trans _ _ _ (twf_ok _) _). cbn [pow]. lra.
  - apply cdotf_range; auto.
Qed.
Lemma fft1_ext q sg ps x X X' : (forall k, X k = X' k) -> fft1 q sg ps x X -> fft1 q sg ps x X'.
Proof.
  destruct ps as [|p ps]; cbn [fft1]; intros E H; [intros k Hk; rewrite <- E; auto|].
  destruct H as [Y [H1 H2]]. exists Y. split; [exact H1|]. intros k Hk. destruct (H2 k Hk) as [W H3]. exists W. rewrite <- E. exact H3.
Qed.
Lemma fftNf_ok sg pss a : Forall pos_shape pss -> fftN 1 sg pss a (fftNf sg pss a).
Proof.
  revert a; induction pss as [|ps pss IH]; intros a Hp; [reflexivity|]. inversion Hp; subst. cbn [fftN].
  exists (fun i => fftNf sg pss (fun l => a (i :: l))). split; [intros; apply IH; auto|]. intros l _. cbn [fftNf]. apply fft1f_ok. auto.
Qed.
Example C112_nonvacuous :
  forall pss, Forall pos_shape pss -> double_arith 1 pss (float_arith pss) /\ double_zarith 1 pss (float_zarith pss).
Proof.
  intros pss Hp.
  assert (I : forall a, computed_ifft 1 pss a (float_ifft pss a)).
  { intros a. split; [reflexivity|]. exists (fftNf 1 pss (get a)). split; [apply fftNf_ok; auto|]. intros x _. split; reflexivity. }
  split.
  - split; [|split]; [intros a _; split; [reflexivity|apply fftNf_ok; auto]|intros a _; apply I|]. intros z w. apply cdotf_ok. discriminate.
  - split; [intros a _; apply I|]. split; [|split].
    + intros t. exists t. split; [|reflexivity]. replace (t - t) with 0 by ring. rewrite Rabs_R0. apply Rmult_le_pos; [assert (G := up_ge1 5); lra|apply Rabs_pos].
    + intros n a b Hn. apply cdotf_range; auto.
    + intros n a b Hn. cbn [float_zarith za_dot]. unfold zrange. replace (Z.to_nat n) with 0%nat by lia. reflexivity.
Qed.

(** two equal 2x2 images with one bright pixel *)
Example C112_chi2_shift_nonvacuous :
  forall e nthreads use_np nfitted max_auto_size max_nsig t, one_sigma e t ->
  let im := mk2 2 2 (fun y x => if (y =? 0)%Z && (x =? 0)%Z then Fin 1 else Fin 0) in
  exists rest rest',
    chi2_shift_with (float_arith [[2]; [2]]%Z) (float_zarith [[2]; [2]]%Z) e im im ErrNone (UInt 1) BWrap false nfitted false true true max_auto_size max_nsig true = Ok (RNum 0 :: RNum 0 :: rest) /\
    chi2_shift e im im ErrNone (UInt 1) BWrap nthreads use_np false nfitted false true true max_auto_size max_nsig true = Ok (RNum 0 :: RNum 0 :: rest').
Proof.
  intros e nt np nf mas mns t Ht im.
  assert (P22 : pos_shape [2; 2]%Z) by (apply pos2; lia).
  assert (P2 : pos_shape [2]%Z) by (apply pos_shape_cons; split; [lia|constructor]).
  destruct (C112_nonvacuous [[2]; [2]]%Z ltac:(repeat constructor; auto)) as [HA HB].
  assert (U64 := u64_pos).
  assert (US : u64 <= / 10 ^ 6).
  { rewrite u64_val. apply Rinv_le_contravar; [cbn [pow]; lra|]. cbn [pow]. lra. }
  set (m := most_roundings 1 [2]%Z [2]%Z).
  assert (Em : INR m = 22) by (change m with 22%nat; rewrite INR_IZR_INZ; reflexivity).
  set (eps := 2 * u64 * (INR m + 5 * (PI * 3) + 1)).
  assert (PU := PI_4). assert (PL := PI_RGT_0).
  assert (He : 0 <= eps <= 1 / 1000).
  { unfold eps. rewrite Em. split; [apply Rmult_le_pos; lra|].
    refine (Rle_trans _ (2 * / 10 ^ 6 * 100) _ _ _); [apply Rmult_le_compat; lra|cbn [pow]; lra]. }
  assert (E4 : (1 + eps) ^ 4 <= (1 + 1 / 1000) ^ 4) by (apply pow_incr; lra).
  assert (E5 : (1 + eps) ^ 5 <= (1 + 1 / 1000) ^ 5) by (apply pow_incr; lra).
  assert (F4 : 1 <= (1 + eps) ^ 4) by (apply pow_R1_Rle; lra). assert (F5 : 1 <= (1 + eps) ^ 5) by (apply pow_R1_Rle; lra).
  destruct (chi2n_map_ok e im im ErrNone nt false np true false true 2 2 eq_refl eq_refl ltac:(lia) ltac:(lia) I (or_introl eq_refl) ltac:(discriminate))
    as [c [t1 [t2 [t3 [E [Sc [_ [_ V]]]]]]]].
  assert (T : forall f, pixel_sum 2 2 f = f 0%Z 0%Z + f 0%Z 1%Z + (f 1%Z 0%Z + f 1%Z 1%Z)).
  { intros f. unfold pixel_sum. change 2%Z with (0 + 1 + 1)%Z. rewrite !sumR_S, !sumR_0 by lia. cbn. ring. }
  assert (U : forall y x, used_image false ErrNone im 2 2 y x = if (y =? 0)%Z && (x =? 0)%Z then 1 else 0).
  { intros y x. unfold used_image, err_zero, prep, px. cbn [im get mk2]. destruct (_ && _); reflexivity. }
  assert (VV : forall k l, (0 <= k < 2)%Z -> (0 <= l < 2)%Z -> g2 c k l = if (k =? 0)%Z && (l =? 0)%Z then 0 else 2).
  { intros k l Hk Hl. destruct (V k l Hk Hl) as [_ [_ ->]]. cbv zeta. unfold chi2_of. rewrite !T.
    assert (k = 0 \/ k = 1)%Z as [-> | ->] by lia; assert (l = 0 \/ l = 1)%Z as [-> | ->] by lia;
    change ((2 - 1) / 2 - 0)%Z with 0%Z; change ((2 - 1) / 2 - 1)%Z with (-1)%Z; rewrite !U; cbn; field. }
  assert (D : chi2_rounding eps false ErrNone im im 2 2 = 2 * ((1 + eps) ^ 4 - 1)).
  { unfold chi2_rounding. cbv zeta. rewrite !T, !U. cbn [Z.eqb andb sigma_of]. replace (1 / 1 ^ 2) with 1 by field. replace (0 / 1 ^ 2) with 0 by field.
    rewrite !Rabs_R0, !Rabs_R1. ring. }
  assert (DD : zoom_rounding eps false ErrNone im im 2 2 c = 4 * (2 * ((1 + eps) ^ 4 - 1)) + (6 + 4 * (2 * ((1 + eps) ^ 4 - 1))) * ((1 + eps) ^ 5 - 1)).
  { unfold zoom_rounding. cbv zeta. rewrite D, T, !VV by lia. cbn [Z.eqb andb]. rewrite Rabs_R0, Rabs_right by lra. change (IZR (2 * 2)) with 4. ring. }
  assert (DB : zoom_rounding eps false ErrNone im im 2 2 c <= 1 / 10).
  { rewrite DD. set (a := (1 + eps) ^ 4) in *. set (b := (1 + eps) ^ 5) in *.
    assert (Q : (6 + 4 * (2 * (a - 1))) * (b - 1) <= (6 + 4 * (2 * (1 / 100))) * (1 / 100)).
    { cbn [pow] in E4, E5. apply Rmult_le_compat; lra. }
    cbn [pow] in E4, E5. lra. }
  assert (G : forall i, grid_shift 2 0 2 1 i = - IZR i).
  { intros i. unfold grid_shift. change ((2 - 1) / 2)%Z with 0%Z. cbn [Z.even]. field. }
  assert (N : forall a b, (0 <= a < 2)%Z -> (0 <= b < 2)%Z -> chi2_at 2 2 c (grid_shift 2 0 2 1 a) (grid_shift 2 0 2 1 b) = if (a =? 0)%Z && (b =? 0)%Z then 0 else 2).
  { intros a b Ha Hb. rewrite !G, <- VV by lia. unfold chi2_at. change ((2 - 1) / 2)%Z with 0%Z. rewrite (tiR_ext [2; 2]%Z (get c) (img2 (g2 c))).
    - replace (0 - - IZR a) with (IZR a) by ring. replace (0 - - IZR b) with (IZR b) by ring. rewrite tiR_int2 by lia. rewrite !Z.mod_small by lia. reflexivity.
    - intros y Hin. apply inb2 in Hin. destruct Hin as [y1 [x1 [-> _]]]. reflexivity. }
  assert (ND : forall a b, (0 <= a < 2)%Z -> (0 <= b < 2)%Z -> (a, b) <> (0, 0)%Z -> (a =? 0)%Z && (b =? 0)%Z = false).
  { intros a b Ha Hb Q. destruct (Z.eqb_spec a 0) as [->|]; [|reflexivity]. destruct (Z.eqb_spec b 0) as [->|]; [exfalso; apply Q; reflexivity|reflexivity]. }
  destruct (C112_chi2_shift 1 [2]%Z [2]%Z (float_arith [[2]; [2]]%Z) (float_zarith [[2]; [2]]%Z) (PI * 3) e im im ErrNone (UInt 1) nt np false nf true true mas mns true 1 2 2 t c t1 t2 t3 0 0 0 0)
    as [rest [rest' [R1 R2]]]; change (prodZ [2])%Z with 2%Z; try lia; try reflexivity; try exact I; auto.
  - fold m. rewrite Em. cbn [pow] in US. lra.
  - left. reflexivity.
  - cbn. repeat split; lia.
  - unfold phase_room. apply Rmult_le_compat_l; [left; apply PI_RGT_0|lra].
  - unfold phase_room. apply Rmult_le_compat_l; [left; apply PI_RGT_0|lra].
  - fold m eps. intros k l Hk Hl Q. rewrite D, !VV, (ND k l) by (auto; lia). cbn [Z.eqb andb]. cbn [pow] in *. lra.
  - cbv zeta. fold m eps. intros a b Ha Hb Q. rewrite !N, (ND a b) by (auto; lia). cbn [Z.eqb andb]. lra.
  - change (prodZ [2])%Z with 2%Z in R1, R2. rewrite G in R1, R2. rewrite Ropp_0 in R1, R2. exists rest, rest'. split; [exact R1|exact R2].
Qed.

(** 4x5 images with a bright pixel at (1,1) and at (3,4) *)
Example C112_register_nonvacuous :
  register_images_with (float_arith [[2; 2]; [5]]%Z) (float_arith [[2; 2]; [5]]%Z) (dot 4 5 1 1) (dot 4 5 3 4) true false None = Ok (nums [-2; -2] ++ err_out true 1).
Proof.
  assert (P4 : pos_shape [2; 2]%Z) by (apply pos2; lia).
  assert (P5 : pos_shape [5]%Z) by (apply pos_shape_cons; split; [lia|constructor]).
  destruct (C112_nonvacuous [[2; 2]; [5]]%Z ltac:(repeat constructor; auto)) as [HA _].
  assert (U64 := u64_pos).
  assert (US : u64 <= / 10 ^ 6) by (rewrite u64_val; apply Rinv_le_contravar; cbn [pow]; lra).
  set (m := (roundings1 1 [2; 2]%Z + roundings1 1 [5]%Z + 4)%nat).
  assert (Em : INR m = 43) by (change m with 43%nat; rewrite INR_IZR_INZ; reflexivity).
  assert (He : 0 <= 2 * u64 * INR m <= / 100) by (rewrite Em; cbn [pow] in US; lra).
  destruct (C112_register_images 1 [2; 2]%Z [5]%Z (float_arith [[2; 2]; [5]]%Z) (float_arith [[2; 2]; [5]]%Z) false (dot 4 5 1 1) (dot 4 5 3 4) true false None 1 true 2 (-2)) as [Q _];
    auto; try reflexivity; try exact I.
  - fold m. rewrite Em. cbn [pow] in US. lra.
  - change (prodZ [2; 2])%Z with 4%Z. change (prodZ [5])%Z with 5%Z. fold m. intros s t Hst.
    refine (Rle_lt_trans _ _ _ _ (proj2 C103_nonvacuous s t Hst)). apply Rplus_le_compat_l, Rmult_le_compat_l; [lra|]. unfold corr_rounding.
    assert (PS : forall a b, 0 <= pixel_sum 4 5 (fun i j => Rabs (prep false (dot 4 5 a b) 4 5 i j))).
    { intros a b. unfold pixel_sum. apply sumR_nonneg. intros i Hi. apply sumR_nonneg. intros j Hj. apply Rabs_pos. }
    apply Rmult_le_compat_l; [apply Rmult_le_pos; apply PS|]. apply Rplus_le_compat_r, pow_incr. lra.
Qed.
