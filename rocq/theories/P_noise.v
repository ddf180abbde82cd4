(** C94: noise below half the distance between an image and its rolls does not change the whole-pixel answer *)
From Coq Require Import ZArith Lia List Reals Lra Bool.
From Coquelicot Require Import Complex.
From Verif Require Import Base NDim DFT Kernel Num Py M_fast_ffts M_shift M_scale M_zoom M_upsample M_downsample M_convolve M_correlate Arg M_chi2 M_xcorr M_register
  Spec L_shift L_scale L_upsample L_convolve Sum2 Spec2 Spec3 Spec4 L_correlate L_chi2 L_chi2shift L_fshift L_xcorr L_register L_register2 L_register3
  P_chi2map P_chi2shift P_chi2errors P_chi2shift2 P_xcorr P_xcorr2 P_xcorr3 P_register P_register3 P_common.
Import ListNotations.
Open Scope R_scope.

(** [f] rolled by (dy, dx) *)
Definition rolled (ny nx : Z) (f : Z -> Z -> R) (dy dx i j : Z) : R := f ((i - dy) mod ny)%Z ((j - dx) mod nx)%Z.
(** squared distance of two images *)
Definition sqdist (ny nx : Z) (f g : Z -> Z -> R) : R := pixel_sum ny nx (fun i j => (f i j - g i j) ^ 2).
(** [g] is [f] rolled by (dy, dx) plus noise; twice the noise is smaller than the distance of [f] to each of its proper rolls *)
Definition low_noise (ny nx : Z) (f g : Z -> Z -> R) (dy dx : Z) : Prop :=
  forall s t, (s mod ny <> 0 \/ t mod nx <> 0)%Z -> 4 * sqdist ny nx g (rolled ny nx f dy dx) < sqdist ny nx f (rolled ny nx f s t).
(** the same for the negatives of its rolls *)
Definition low_noise_neg (ny nx : Z) (f g : Z -> Z -> R) (dy dx : Z) : Prop :=
  forall s t, (s mod ny <> 0 \/ t mod nx <> 0)%Z ->
    4 * sqdist ny nx g (rolled ny nx f dy dx) < sqdist ny nx f (fun i j => - rolled ny nx f s t i j).

Lemma sqdist_triangle ny nx a b c : sqdist ny nx a c <= 2 * sqdist ny nx b a + 2 * sqdist ny nx b c.
Proof.
  unfold sqdist. change (pixel_sum ny nx) with (sum2 ny nx). rewrite <- !sum2_scal, <- sum2_plus. apply sum2_le. intros i j _ _.
  assert (Q := pow2_ge_0 (b i j - a i j + (b i j - c i j))). lra.
Qed.
Lemma rolled_rolled ny nx f a b s t i j : rolled ny nx (rolled ny nx f a b) s t i j = rolled ny nx f (s + a) (t + b) i j.
Proof. unfold rolled. rewrite !Zminus_mod_idemp_l. f_equal; f_equal; lia. Qed.
Lemma sqdist_rolled ny nx f h s t : (0 < ny)%Z -> (0 < nx)%Z -> sqdist ny nx (rolled ny nx f s t) (rolled ny nx h s t) = sqdist ny nx f h.
Proof. intros Hy Hx. unfold sqdist, rolled. apply (sum2_moved ny nx (fun i j => (f i j - h i j) ^ 2) s t); auto. Qed.
(** distance of two rolls of one image = distance of the image to its roll by the difference *)
Lemma sqdist_two_rolls ny nx f dy dx s t : (0 < ny)%Z -> (0 < nx)%Z ->
  sqdist ny nx (rolled ny nx f dy dx) (rolled ny nx f s t) = sqdist ny nx f (rolled ny nx f (s - dy) (t - dx)).
Proof.
  intros Hy Hx. rewrite <- (sqdist_rolled ny nx f (rolled ny nx f (s - dy) (t - dx)) dy dx) by auto.
  unfold sqdist. apply sum2_ext. intros i j _ _. rewrite rolled_rolled. f_equal. f_equal. f_equal; lia.
Qed.
Lemma sqdist_two_rolls_neg ny nx f dy dx s t : (0 < ny)%Z -> (0 < nx)%Z ->
  sqdist ny nx (rolled ny nx f dy dx) (fun i j => - rolled ny nx f s t i j) = sqdist ny nx f (fun i j => - rolled ny nx f (s - dy) (t - dx) i j).
Proof.
  intros Hy Hx. rewrite <- (sqdist_rolled ny nx f (fun i j => - rolled ny nx f (s - dy) (t - dx) i j) dy dx) by auto.
  unfold sqdist. apply sum2_ext. intros i j _ _. f_equal. f_equal. f_equal. change (rolled ny nx (fun i j => - rolled ny nx f (s - dy) (t - dx) i j) dy dx i j) with (- rolled ny nx (rolled ny nx f (s - dy) (t - dx)) dy dx i j).
  rewrite rolled_rolled. f_equal. f_equal; lia.
Qed.
(** the rolled image at (dy, dx) is nearest to [g] among all rolls *)
Lemma nearest ny nx f g dy dx s t : (0 < ny)%Z -> (0 < nx)%Z -> low_noise ny nx f g dy dx -> ((s - dy) mod ny <> 0 \/ (t - dx) mod nx <> 0)%Z ->
  sqdist ny nx g (rolled ny nx f dy dx) < sqdist ny nx g (rolled ny nx f s t).
Proof.
  intros Hy Hx H N. specialize (H _ _ N). rewrite <- (sqdist_two_rolls ny nx f dy dx s t) in H by auto.
  assert (T := sqdist_triangle ny nx (rolled ny nx f dy dx) g (rolled ny nx f s t)). lra.
Qed.
Lemma nearest_neg ny nx f g dy dx s t : (0 < ny)%Z -> (0 < nx)%Z -> low_noise_neg ny nx f g dy dx -> ((s - dy) mod ny <> 0 \/ (t - dx) mod nx <> 0)%Z ->
  sqdist ny nx g (rolled ny nx f dy dx) < sqdist ny nx g (fun i j => - rolled ny nx f s t i j).
Proof.
  intros Hy Hx H N. specialize (H _ _ N). rewrite <- (sqdist_two_rolls_neg ny nx f dy dx s t) in H by auto.
  assert (T := sqdist_triangle ny nx (rolled ny nx f dy dx) g (fun i j => - rolled ny nx f s t i j)). lra.
Qed.
Lemma sqdist_ccf ny nx f g s t : (0 < ny)%Z -> (0 < nx)%Z ->
  sqdist ny nx g (rolled ny nx f s t) = pixel_sum ny nx (fun i j => g i j ^ 2) + pixel_sum ny nx (fun i j => f i j ^ 2) - 2 * ccf ny nx f g s t /\
  sqdist ny nx g (fun i j => - rolled ny nx f s t i j) = pixel_sum ny nx (fun i j => g i j ^ 2) + pixel_sum ny nx (fun i j => f i j ^ 2) + 2 * ccf ny nx f g s t.
Proof.
  intros Hy Hx. unfold sqdist, ccf. change (pixel_sum ny nx) with (sum2 ny nx).
  rewrite <- (sum2_moved ny nx (fun i j => f i j ^ 2) s t) by auto. rewrite <- !sum2_scal, <- sum2_plus, <- sum2_minus, <- sum2_plus.
  split; apply sum2_ext; intros i j _ _; unfold rolled; ring.
Qed.

Lemma low_noise_best ny nx f g dy dx : (0 < ny)%Z -> (0 < nx)%Z -> low_noise ny nx f g dy dx -> best_roll ny nx f g dy dx.
Proof.
  intros Hy Hx H s t N. assert (Q := nearest ny nx f g dy dx s t Hy Hx H N).
  rewrite !(proj1 (sqdist_ccf ny nx f g _ _ Hy Hx)) in Q. lra.
Qed.
Lemma low_noise_best_abs ny nx f g dy dx : (0 < ny)%Z -> (0 < nx)%Z -> low_noise ny nx f g dy dx -> low_noise_neg ny nx f g dy dx -> best_abs_roll ny nx f g dy dx.
Proof.
  intros Hy Hx H H' s t N. assert (Q := nearest ny nx f g dy dx s t Hy Hx H N). assert (Q' := nearest_neg ny nx f g dy dx s t Hy Hx H' N).
  rewrite !(proj1 (sqdist_ccf ny nx f g _ _ Hy Hx)) in Q. rewrite (proj1 (sqdist_ccf ny nx f g _ _ Hy Hx)), (proj2 (sqdist_ccf ny nx f g _ _ Hy Hx)) in Q'.
  assert (P := Rle_abs (ccf ny nx f g dy dx)). apply Rabs_def1; lra.
Qed.

Lemma ok2 a b c d : a = c -> b = d -> Ok [XF a; XF b] = Ok [XF c; XF d].
Proof. intros -> ->. reflexivity. Qed.

(** the chi-squared map has its only minimum at the roll; the entry of roll s is ((n-1)/2 - s) mod n *)
Theorem C94_chi2n_map :
  forall e im1 im2 err s nthreads zeromean use_np return_all allow_huge ny nx dy dx,
  shape im1 = [ny; nx] -> shape im2 = [ny; nx] -> (0 < ny)%Z -> (0 < nx)%Z -> size_ok e allow_huge ny nx ->
  (err = ErrNone /\ s = 1 \/ err = ErrScalar s /\ s <> 0) ->
  low_noise ny nx (prep zeromean im1 ny nx) (prep zeromean im2 ny nx) dy dx ->
  exists r, chi2n_map e im1 im2 err BWrap nthreads zeromean use_np return_all false allow_huge = Ok r /\
    forall k l, (0 <= k < ny)%Z -> (0 <= l < nx)%Z -> (k <> ((ny - 1) / 2 - dy) mod ny \/ l <> ((nx - 1) / 2 - dx) mod nx)%Z ->
      g2 (chi2_of_res r) (((ny - 1) / 2 - dy) mod ny) (((nx - 1) / 2 - dx) mod nx) < g2 (chi2_of_res r) k l.
Proof.
  intros e im1 im2 err s nt zm np ra huge ny nx dy dx H1 H2 Hy Hx Hh Hs HL.
  destruct (C34_scalar_error e im1 im2 err s nt zm np ra huge ny nx H1 H2 Hy Hx Hh Hs) as [r [E [_ V]]].
  exists r. split; [exact E|]. intros k l Hk Hl N.
  assert (My := Z.mod_pos_bound ((ny - 1) / 2 - dy) ny Hy). assert (Mx := Z.mod_pos_bound ((nx - 1) / 2 - dx) nx Hx).
  rewrite !V by auto.
  assert (S0 : s <> 0) by (destruct Hs as [[_ ->]|[_ ?]]; [lra|assumption]).
  assert (EQ : forall a b, chi2_of ny nx (prep zm im1 ny nx) (prep zm im2 ny nx) (fun _ _ => s) a b = / s ^ 2 * sqdist ny nx (prep zm im2 ny nx) (rolled ny nx (prep zm im1 ny nx) a b)).
  { intros a b. unfold chi2_of, sqdist. change (pixel_sum ny nx) with (sum2 ny nx). rewrite <- sum2_scal. apply sum2_ext. intros. unfold rolled. field. auto. }
  rewrite !EQ. apply Rmult_lt_compat_l; [apply Rinv_0_lt_compat; simpl; rewrite Rmult_1_r; apply Rsqr_pos_lt; exact S0|].
  assert (RM : forall n d, (0 < n)%Z -> exists q, ((n - 1) / 2 - ((n - 1) / 2 - d) mod n = d + q * n)%Z).
  { intros n d Hn. exists (((n - 1) / 2 - d) / n)%Z. assert (Q := Z.div_mod ((n - 1) / 2 - d) n ltac:(lia)). lia. }
  destruct (RM ny dy Hy) as [qy Qy]. destruct (RM nx dx Hx) as [qx Qx].
  replace (sqdist ny nx (prep zm im2 ny nx) (rolled ny nx (prep zm im1 ny nx) ((ny - 1) / 2 - ((ny - 1) / 2 - dy) mod ny) ((nx - 1) / 2 - ((nx - 1) / 2 - dx) mod nx)))
    with (sqdist ny nx (prep zm im2 ny nx) (rolled ny nx (prep zm im1 ny nx) dy dx)).
  2:{ rewrite Qy, Qx. unfold sqdist. apply sum2_ext. intros i j _ _. unfold rolled.
      replace (i - (dy + qy * ny))%Z with (i - dy + (- qy) * ny)%Z by ring. replace (j - (dx + qx * nx))%Z with (j - dx + (- qx) * nx)%Z by ring. rewrite !Z.mod_add by lia. reflexivity. }
  apply nearest; auto.
  assert (NE : forall n c k d, (0 < n)%Z -> (0 <= k < n)%Z -> (k <> (c - d) mod n)%Z -> ((c - k - d) mod n <> 0)%Z).
  { intros n c k0 d Hn Hk0 Q Z0. apply Q. apply Z.mod_divide in Z0; [|lia]. destruct Z0 as [q Z0]. apply (Z.mod_unique_pos _ _ q); lia. }
  destruct N as [N|N]; [left|right]; apply NE; auto.
Qed.
Print Assumptions C94_chi2n_map.

(** chi2_shift stays in the fine window around the roll *)
Theorem C94_chi2_shift :
  forall e im1 im2 err s us nthreads use_np zeromean nfitted ret_err ret_arr mas mns allow_huge ny nx dy dx u s1 s2 t,
  shape im1 = [ny; nx] -> shape im2 = [ny; nx] -> (0 < ny)%Z -> (0 < nx)%Z -> size_ok e allow_huge ny nx ->
  (err = ErrNone /\ s = 1 \/ err = ErrScalar s /\ s <> 0) -> explicit_grid us ny nx u s1 s2 -> one_sigma e t ->
  low_noise ny nx (prep zeromean im1 ny nx) (prep zeromean im2 ny nx) dy dx ->
  (- (ny / 2) <= dy <= (ny - 1) / 2)%Z -> (- (nx / 2) <= dx <= (nx - 1) / 2)%Z ->
  exists x y rest,
    chi2_shift e im1 im2 err us BWrap nthreads use_np zeromean nfitted false ret_err ret_arr mas mns allow_huge = Ok (RNum x :: RNum y :: rest) /\
    Rabs (y - IZR dy) <= (IZR s1 - 1) / 2 / u + (if Z.even ny then 1 / 2 else 0) /\
    Rabs (x - IZR dx) <= (IZR s2 - 1) / 2 / u + (if Z.even nx then 1 / 2 else 0).
Proof.
  intros e im1 im2 err s us nt np zm nf re ra mas mns huge ny nx dy dx u s1 s2 t H1 H2 Hy Hx Hh Hs Hg Ht HL Ry Rx.
  assert (Hok : err_ok err ny nx) by (destruct Hs as [[-> _]|[-> ?]]; simpl; auto).
  destruct (C39_window e im1 im2 err us nt np zm nf re ra mas mns huge ny nx u s1 s2 t H1 H2 Hy Hx Hok Hh Hg Ht)
    as [map0 [t1 [t2 [t3 [ym [xm [x [y [rest [EM [[Aym [Axm [A _]]] [E [Wy Wx]]]]]]]]]]]]].
  destruct (C94_chi2n_map e im1 im2 err s nt zm np true huge ny nx dy dx H1 H2 Hy Hx Hh Hs HL) as [r [E' M]].
  rewrite EM in E'. injection E' as <-. cbn [chi2_of_res] in M. cbn [fst snd] in Aym, Axm, A.
  assert (RD : forall n d, (0 < n)%Z -> (- (n / 2) <= d <= (n - 1) / 2)%Z -> (((n - 1) / 2 - d) mod n = (n - 1) / 2 - d)%Z).
  { intros n d Hn Hd. apply Z.mod_small. assert ((n / 2 + (n - 1) / 2 = n - 1)%Z) by (Z.to_euclidean_division_equations; lia). lia. }
  rewrite (RD ny dy Hy Ry), (RD nx dx Hx Rx) in M.
  assert (YM : (ym = (ny - 1) / 2 - dy /\ xm = (nx - 1) / 2 - dx)%Z).
  { destruct (Z.eq_dec ym ((ny - 1) / 2 - dy)); destruct (Z.eq_dec xm ((nx - 1) / 2 - dx)); auto; exfalso;
    (assert (Q := M ym xm Aym Axm ltac:(tauto)));
    (assert (P := A ((ny - 1) / 2 - dy)%Z ((nx - 1) / 2 - dx)%Z ltac:(assert (K := RD ny dy Hy Ry); rewrite <- K; apply Z.mod_pos_bound; lia) ltac:(assert (K := RD nx dx Hx Rx); rewrite <- K; apply Z.mod_pos_bound; lia))); lra. }
  destruct YM as [-> ->]. exists x, y, rest. split; [exact E|].
  replace ((ny - 1) / 2 - ((ny - 1) / 2 - dy))%Z with dy in Wy by lia. replace ((nx - 1) / 2 - ((nx - 1) / 2 - dx))%Z with dx in Wx by lia. auto.
Qed.
Print Assumptions C94_chi2_shift.

(** the whole-pixel register_images returns the roll *)
Theorem C94_register_images :
  forall has_fftw im1 im2 ret_err zeromean maxoff nthreads use_np ny nx dy dx,
  shape im1 = [ny; nx] -> shape im2 = [ny; nx] -> (0 < ny)%Z -> (0 < nx)%Z ->
  mo_ok maxoff -> within maxoff (centred ny dy) -> within maxoff (centred nx dx) ->
  low_noise ny nx (prep zeromean im1 ny nx) (prep zeromean im2 ny nx) dy dx ->
  low_noise_neg ny nx (prep zeromean im1 ny nx) (prep zeromean im2 ny nx) dy dx ->
  register_images has_fftw im1 im2 1 false ret_err zeromean maxoff nthreads use_np =
    Ok (nums [IZR (centred nx dx); IZR (centred ny dy)] ++ err_out ret_err 1).
Proof. intros. apply C51_unique_peak_is_returned; auto. apply low_noise_best_abs; auto. Qed.
Print Assumptions C94_register_images.

(** for images without negative pixels the condition on the negatives is implied *)
Theorem C94_nonnegative_images :
  forall ny nx f g dy dx, (0 < ny)%Z -> (0 < nx)%Z -> (forall y x, (0 <= y < ny)%Z -> (0 <= x < nx)%Z -> 0 <= f y x) ->
  low_noise ny nx f g dy dx -> low_noise_neg ny nx f g dy dx.
Proof.
  intros ny nx f g dy dx Hy Hx Hp H s t N. refine (Rlt_le_trans _ _ _ (H s t N) _).
  apply sum2_le. intros i j Hi Hj. assert (A := Hp i j Hi Hj).
  assert (B : 0 <= rolled ny nx f s t i j) by (apply Hp; apply Z.mod_pos_bound; lia).
  assert (C := Rmult_le_pos _ _ A B). lra.
Qed.
Print Assumptions C94_nonnegative_images.

(** cross_correlation_shifts returns the roll (plus the half pixel of odd sizes) plus the refinement computed from the 3 x 3 correlation
    values around the roll *)
Theorem C94_cross_correlation_shifts :
  forall e agpy im1 im2 er1 er2 zeromean nthreads use_np allow_huge ny nx dy dx,
  shape im1 = [ny; nx] -> shape im2 = [ny; nx] -> size_ok e allow_huge ny nx -> errim_ok er1 ny nx -> errim_ok er2 ny nx ->
  interior_shift ny dy -> interior_shift nx dx ->
  let f := prep zeromean im1 ny nx in let g := prep zeromean im2 ny nx in
  low_noise ny nx f g dy dx -> ccf ny nx f g dy dx <> 0 ->
  let c := fun u v => ccf ny nx f g (dy + u) (dx + v) / IZR (ny * nx) in
  let gx := (c 0%Z (-1)%Z - c 0%Z 1%Z) / 2 in let gy := (c (-1)%Z 0%Z - c 1%Z 0%Z) / 2 in
  let hy := c (-1)%Z 0%Z + c 1%Z 0%Z - 2 * c 0%Z 0%Z in let hx := c 0%Z 1%Z + c 0%Z (-1)%Z - 2 * c 0%Z 0%Z in
  let m := 1 / 4 * (c (-1)%Z 1%Z + c 1%Z (-1)%Z - c (-1)%Z (-1)%Z - c 1%Z 1%Z) in
  m ^ 2 - hy * hx <> 0 ->
  cross_correlation_shifts e agpy im1 im2 er1 er2 None false false zeromean BWrap nthreads use_np allow_huge =
    Ok [XF (IZR dx + half_if_odd nx - (hx * gx - gy * m) / (m ^ 2 - hy * hx)); XF (IZR dy + half_if_odd ny - (hy * gy - gx * m) / (m ^ 2 - hy * hx))].
Proof.
  intros e agpy im1 im2 er1 er2 zm nt np huge ny nx dy dx H1 H2 Hh He1 He2 Iy Ix f g HL Hc c gx gy hy hx m Hd.
  assert (By := interior_bounds ny dy Iy). assert (Bx := interior_bounds nx dx Ix).
  assert (Hy : (0 < ny)%Z) by (Z.to_euclidean_division_equations; lia). assert (Hx : (0 < nx)%Z) by (Z.to_euclidean_division_equations; lia).
  assert (X := xcorr_interior e agpy im1 im2 er1 er2 false zm nt np huge ny nx dy dx H1 H2 Hh He1 He2 Iy Ix (low_noise_best ny nx f g dy dx Hy Hx HL) Hc).
  change (cross_correlation_shifts e agpy im1 im2 er1 er2 None false false zm BWrap nt np huge =
    Ok [xnegadd (- IZR dx - half_if_odd nx) (xdiv (XF (hx * gx - gy * m)) (XF (m ^ 2 - hy * hx)));
        xnegadd (- IZR dy - half_if_odd ny) (xdiv (XF (hy * gy - gx * m)) (XF (m ^ 2 - hy * hx)))]) in X.
  rewrite X. clear X. clearbody gx gy hy hx m. unfold xdiv. destruct (Req_EM_T (m ^ 2 - hy * hx) 0) as [Z0|_]; [contradiction|].
  unfold xnegadd. apply ok2; unfold Rdiv; ring.
Qed.
Print Assumptions C94_cross_correlation_shifts.

(** *** C95: the refinement stays near the peak pixel *)
Definition spike (eps : R) : arr num := mk2 4 4 (fun y x => Fin (
  if ((y =? 1) && (x =? 1))%Z then 10 else if ((y =? 1) && (x =? 2))%Z then 9 else if ((y =? 1) && (x =? 0))%Z then 7
  else if (((y =? 0) || (y =? 2)) && (x =? 1))%Z then 10 - eps else 0)).
Theorem C95_refinement_unbounded_refuted :
  forall M : R, exists im1 im2 : arr num,
    (forall y x, (0 <= y < 4)%Z -> (0 <= x < 4)%Z -> 0 <= px im1 y x <= 10 /\ 0 <= px im2 y x <= 10) /\
    best_roll 4 4 (prep false im1 4 4) (prep false im2 4 4) 0 0 /\
    forall e agpy nthreads use_np, exists x,
      cross_correlation_shifts e agpy im1 im2 None None None false false false BWrap nthreads use_np true = Ok [XF x; XF 0] /\ M < x.
Proof.
  intros M. set (eps := / (2 * (Rabs M + 1))).
  assert (MP : 0 < 2 * (Rabs M + 1)) by (assert (Q := Rabs_pos M); lra).
  assert (EP : 0 < eps) by (apply Rinv_0_lt_compat; exact MP).
  assert (E1 : eps < 1) by (unfold eps; rewrite <- Rinv_1; apply Rinv_lt_contravar; assert (Q := Rabs_pos M); lra).
  exists (dot 4 4 1 1), (spike eps).
  assert (V : forall s t, ccf 4 4 (prep false (dot 4 4 1 1) 4 4) (prep false (spike eps) 4 4) s t = px (spike eps) ((1 + s) mod 4) ((1 + t) mod 4)).
  { intros s t. rewrite (ccf_delta 4 4 (prep false (dot 4 4 1 1) 4 4) (prep false (spike eps) 4 4) 1 1); try lia.
    - reflexivity.
    - intros y x HY HX. unfold prep, dot. cbn [get mk2]. destruct ((y =? 1)%Z && (x =? 1)%Z); reflexivity. }
  assert (PX : forall y x, px (spike eps) y x = if ((y =? 1) && (x =? 1))%Z then 10 else if ((y =? 1) && (x =? 2))%Z then 9 else if ((y =? 1) && (x =? 0))%Z then 7
    else if (((y =? 0) || (y =? 2)) && (x =? 1))%Z then 10 - eps else 0) by reflexivity.
  split.
  { intros y x HY HX. split.
    - unfold px, dot. cbn [get mk2]. destruct ((y =? 1)%Z && (x =? 1)%Z); lra.
    - rewrite PX. repeat match goal with |- context [if ?b then _ else _] => destruct b end; lra. }
  assert (B : best_roll 4 4 (prep false (dot 4 4 1 1) 4 4) (prep false (spike eps) 4 4) 0 0).
  { intros s t N. rewrite !V, !PX. change ((1 + 0) mod 4)%Z with 1%Z. cbn [Z.eqb Pos.eqb andb].
    destruct (Z.eqb_spec ((1 + s) mod 4) 1) as [P|P]; destruct (Z.eqb_spec ((1 + t) mod 4) 1) as [Q|Q]; cbn [andb];
    try (repeat match goal with |- context [if ?b then _ else _] => destruct b end; lra).
    exfalso. revert N. Z.to_euclidean_division_equations; lia. }
  split; [exact B|]. intros e agpy nt np. exists (/ (2 * eps)).
  split.
  2:{ replace (2 * eps) with (/ (Rabs M + 1)) by (unfold eps; field; lra). rewrite Rinv_inv. assert (Q := Rle_abs M). lra. }
  rewrite (xcorr_interior e agpy (dot 4 4 1 1) (spike eps) None None false false nt np true 4 4 0 0); try reflexivity; auto.
  2:{ left; reflexivity. }
  2:{ split; reflexivity. }
  2:{ split; reflexivity. }
  2:{ rewrite V, PX. change ((1 + 0) mod 4)%Z with 1%Z. cbn [Z.eqb Pos.eqb andb]. lra. }
  cbv beta zeta. rewrite !V, !PX.
  repeat match goal with |- context [(?a mod ?b)%Z] => let v := eval vm_compute in (a mod b)%Z in change (a mod b)%Z with v end.
  cbn [Z.eqb Pos.eqb andb orb]. change (half_if_odd 4) with 0. change (IZR (4 * 4)) with 16.
  unfold xdiv. match goal with |- context [Req_EM_T ?d 0] => destruct (Req_EM_T d 0) as [Z0|_]; [exfalso; revert Z0; nra|] end.
  unfold xnegadd. apply ok2; field; nra.
Qed.
Print Assumptions C95_refinement_unbounded_refuted.

(** the bound is sharp: with 4 sqdist <= in place of < a roll can be missed *)
Theorem C94_bound_is_sharp :
  let im1 := dot 1 2 0 0 in let im2 := mk2 1 2 (fun _ _ => Fin (1 / 2)) in
  let f := prep false im1 1 2 in let g := prep false im2 1 2 in
  forall has_fftw nthreads use_np, exists tx ty dx,
    register_images has_fftw im1 im2 1 false false false None nthreads use_np = Ok (nums [IZR tx; IZR ty]) /\ (centred 2 dx <> tx)%Z /\
    forall s t, (s mod 1 <> 0 \/ t mod 2 <> 0)%Z -> 4 * sqdist 1 2 g (rolled 1 2 f 0 dx) <= sqdist 1 2 f (rolled 1 2 f s t).
Proof.
  cbv zeta.
  assert (EQ : forall dx s s0, (s mod 2 <> 0)%Z -> 4 * sqdist 1 2 (prep false (mk2 1 2 (fun _ _ => Fin (1 / 2))) 1 2) (rolled 1 2 (prep false (dot 1 2 0 0) 1 2) 0 dx) =
     sqdist 1 2 (prep false (dot 1 2 0 0) 1 2) (rolled 1 2 (prep false (dot 1 2 0 0) 1 2) s0 s)).
  - intros dx s s0 Hs. unfold sqdist. change (pixel_sum 1 2) with (sum2 1 2). unfold sum2.
    assert (S1 : forall h, sumR 1 h = h 0%Z) by (intros h; change 1%Z with (0 + 1)%Z; rewrite sumR_S by lia; rewrite sumR_0 by lia; simpl; ring).
    assert (S2 : forall h, sumR 2 h = h 0%Z + h 1%Z) by (intros h; change 2%Z with (0 + 1 + 1)%Z; rewrite !sumR_S by lia; rewrite sumR_0 by lia; simpl; ring).
    rewrite !S1, !S2. unfold rolled. rewrite !Z.mod_1_r.
    assert (F : forall k, prep false (dot 1 2 0 0) 1 2 0 k = if (k =? 0)%Z then 1 else 0) by (intros k; unfold prep, dot; cbn [get mk2]; destruct (k =? 0)%Z; reflexivity).
    assert (G : forall k, prep false (mk2 1 2 (fun _ _ => Fin (1 / 2))) 1 2 0 k = 1 / 2) by reflexivity.
    rewrite !F, !G.
    assert (D : (dx mod 2 = 0 \/ dx mod 2 = 1)%Z) by (assert (Q := Z.mod_pos_bound dx 2 ltac:(lia)); lia).
    assert (S : (s mod 2 = 1)%Z) by (assert (Q := Z.mod_pos_bound s 2 ltac:(lia)); lia).
    assert (X0 : ((0 - s) mod 2 = 1)%Z) by (Z.to_euclidean_division_equations; lia). assert (X1 : ((1 - s) mod 2 = 0)%Z) by (Z.to_euclidean_division_equations; lia).
    rewrite X0, X1. destruct D as [D|D].
    + assert (Y0 : ((0 - dx) mod 2 = 0)%Z) by (Z.to_euclidean_division_equations; lia). assert (Y1 : ((1 - dx) mod 2 = 1)%Z) by (Z.to_euclidean_division_equations; lia).
      rewrite Y0, Y1. simpl. lra.
    + assert (Y0 : ((0 - dx) mod 2 = 1)%Z) by (Z.to_euclidean_division_equations; lia). assert (Y1 : ((1 - dx) mod 2 = 0)%Z) by (Z.to_euclidean_division_equations; lia).
      rewrite Y0, Y1. simpl. lra.
  - intros hf nt np. destruct (register_whole hf (dot 1 2 0 0) (mk2 1 2 (fun _ _ => Fin (1 / 2))) false false None nt np 1 2) as [ty [tx [E _]]]; try reflexivity; try lia.
    assert (K : forall dx s t, (s mod 1 <> 0 \/ t mod 2 <> 0)%Z -> 4 * sqdist 1 2 (prep false (mk2 1 2 (fun _ _ => Fin (1 / 2))) 1 2) (rolled 1 2 (prep false (dot 1 2 0 0) 1 2) 0 dx) <=
       sqdist 1 2 (prep false (dot 1 2 0 0) 1 2) (rolled 1 2 (prep false (dot 1 2 0 0) 1 2) s t)).
    { intros dx s t N. rewrite (EQ dx t s); [lra|]. rewrite Z.mod_1_r in N. tauto. }
    destruct (Z.eq_dec tx 0) as [->|N]; [exists 0%Z, ty, 1%Z|exists tx, ty, 0%Z]; (split; [rewrite E, app_nil_r; reflexivity|]); (split; [|apply K]);
    [discriminate|change (centred 2 0) with 0%Z; lia].
Qed.
Print Assumptions C94_bound_is_sharp.

(** a star, moved by (1, 2), with noise 1/2 in one pixel and -1/4 in another *)
Example C94_nonvacuous :
  let im1 := dot 4 4 1 1 in
  let im2 := mk2 4 4 (fun y x => Fin (if (y =? 2)%Z && (x =? 3)%Z then 3 / 4 else if (y =? 0)%Z && (x =? 0)%Z then 1 / 2 else 0)) in
  low_noise 4 4 (prep false im1 4 4) (prep false im2 4 4) 1 2 /\ low_noise_neg 4 4 (prep false im1 4 4) (prep false im2 4 4) 1 2 /\ ~ is_roll im1 im2 4 4 1 2.
Proof.
  cbv zeta. set (im2 := mk2 4 4 _).
  assert (S4 : forall h, sumR 4 h = h 0%Z + h 1%Z + h 2%Z + h 3%Z) by (intros h; change 4%Z with (0 + 1 + 1 + 1 + 1)%Z; rewrite !sumR_S by lia; rewrite sumR_0 by lia; simpl; ring).
  assert (L : low_noise 4 4 (prep false (dot 4 4 1 1) 4 4) (prep false im2 4 4) 1 2).
  { intros s t N. apply Rlt_le_trans with 2.
    - unfold sqdist, pixel_sum. rewrite !S4. unfold rolled.
      repeat match goal with |- context [(?a mod ?b)%Z] => let v := eval vm_compute in (a mod b)%Z in change (a mod b)%Z with v end.
      unfold prep, dot, im2. cbn. lra.
    - set (f := prep false (dot 4 4 1 1) 4 4). set (h := fun i j => (f i j - rolled 4 4 f s t i j) ^ 2).
      assert (F : forall y x, f y x = if (y =? 1)%Z && (x =? 1)%Z then 1 else 0) by (intros y x; unfold f, prep, dot; cbn [get mk2]; destruct ((y =? 1)%Z && (x =? 1)%Z); reflexivity).
      assert (SR : sqdist 4 4 f (rolled 4 4 f s t) = 2 - 2 * rolled 4 4 f s t 1 1).
      { assert (A := sum2_moved 4 4 (fun i j => f i j ^ 2) s t ltac:(lia) ltac:(lia)).
        assert (B : sum2 4 4 (fun i j => f i j ^ 2) = 1) by (unfold sum2; rewrite !S4, !F; cbn; lra).
        assert (C : sum2 4 4 (fun i j => f i j * rolled 4 4 f s t i j) = rolled 4 4 f s t 1 1) by (unfold sum2; rewrite !S4; rewrite !(F 0%Z), !(F 1%Z), !(F 2%Z), !(F 3%Z); cbn; lra).
        unfold sqdist. change (pixel_sum 4 4) with (sum2 4 4).
        rewrite (sum2_ext 4 4 _ (fun i j => f i j ^ 2 + f ((i - s) mod 4)%Z ((j - t) mod 4)%Z ^ 2 - 2 * (f i j * rolled 4 4 f s t i j))) by (intros; unfold rolled; ring).
        rewrite sum2_minus, sum2_plus, sum2_scal, A, B, C. ring. }
      rewrite SR. unfold rolled. rewrite F. destruct (Z.eqb_spec ((1 - s) mod 4) 1) as [P|P]; destruct (Z.eqb_spec ((1 - t) mod 4) 1) as [Q|Q]; cbn [andb]; try lra.
      exfalso. revert N. Z.to_euclidean_division_equations; lia. }
  split; [exact L|]. split.
  - apply C94_nonnegative_images; auto; try lia. intros y x _ _. unfold prep, dot. cbn [get mk2]. destruct ((y =? 1)%Z && (x =? 1)%Z); lra.
  - intros [_ [_ R]]. specialize (R 0%Z 0%Z ltac:(lia) ltac:(lia)). vm_compute in R. injection R as R. lra.
Qed.
