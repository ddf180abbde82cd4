(** Property C83: the error estimates of cross_correlation_shifts; C50: remaining exits *)
From Coq Require Import ZArith Lia List Reals Lra Bool.
From Coquelicot Require Import Complex.
From Verif Require Import Base NDim DFT Kernel Py M_fast_ffts M_shift M_convolve M_correlate Arg M_chi2 M_xcorr
  Spec L_shift L_convolve Sum2 Spec2 L_correlate L_chi2 P_chi2map Spec3 L_xcorr P_xcorr P_xcorr2 P_xcorr3.
Import ListNotations.
Open Scope R_scope.

(** Zucker (2003): error from the curvature [d] of the correlation at its peak [p] (both already divided by the number of
    pixels), for mean squares [e1], [e2] of the images, [N] pixels *)
Definition zucker_error (N e1 e2 p d : R) : R :=
  let r := p / (e1 * e2) in / sqrt (Rabs (N * (d / (e1 * e2)) * (r / (1 - r ^ 2)))).

Lemma zucker_val N s1 s2 p d : N <> 0 -> s1 <> 0 -> s2 <> 0 -> p <> 0 -> d <> 0 -> (p / (s1 / N * (s2 / N))) ^ 2 <> 1 ->
  zucker N s1 s2 p d = XF (zucker_error N (s1 / N) (s2 / N) p d).
Proof.
  intros HN H1 H2 Hp Hd Hr. unfold zucker.
  assert (A1 : s1 / N <> 0) by (unfold Rdiv; apply Rmult_integral_contrapositive_currified; auto using Rinv_neq_0_compat).
  assert (A2 : s2 / N <> 0) by (unfold Rdiv; apply Rmult_integral_contrapositive_currified; auto using Rinv_neq_0_compat).
  rewrite (xdiv_ok 1 (s1 / N)), xdiv_ok by auto. cbn [xmul].
  set (e1 := s1 / N) in *. set (e2 := s2 / N) in *.
  assert (Er : p * (1 / e1 / e2) = p / (e1 * e2)) by (field; auto). rewrite Er.
  set (r := p / (e1 * e2)) in *.
  assert (Hr0 : r <> 0) by (unfold r, Rdiv; apply Rmult_integral_contrapositive_currified; [auto|apply Rinv_neq_0_compat, Rmult_integral_contrapositive_currified; auto]).
  assert (Hq : 1 - r * r <> 0) by (intros Z; apply Hr; replace (r ^ 2) with (1 - (1 - r * r)) by ring; rewrite Z; ring).
  rewrite !xdiv_ok by auto. cbn [xmul].
  assert (EQ : -1 * N * d * (1 / e1 / e2) / r * (r * r / (1 - r * r)) = - (N * (d / (e1 * e2)) * (r / (1 - r ^ 2)))) by (field; repeat split; auto; intros Z; apply Hq; rewrite <- Z; ring).
  rewrite EQ. cbn [xabs_pow_mhalf].
  assert (NZ : N * (d / (e1 * e2)) * (r / (1 - r ^ 2)) <> 0).
  { unfold Rdiv. repeat apply Rmult_integral_contrapositive_currified; auto; apply Rinv_neq_0_compat.
    all: first [apply Rmult_integral_contrapositive_currified; solve [auto] | intros Z; apply Hq; rewrite <- Z; ring]. }
  destruct (Req_EM_T (- (N * (d / (e1 * e2)) * (r / (1 - r ^ 2)))) 0) as [Z|Z]; [lra|]. f_equal. unfold zucker_error. fold r. rewrite Rabs_Ropp. reflexivity.
Qed.

(** second difference of the correlation (per pixel) at the best roll, along y and along x *)
Definition curv_y (ny nx : Z) (f g : Z -> Z -> R) (sy sx : Z) : R :=
  (ccf ny nx f g (sy + 1) sx - 2 * ccf ny nx f g sy sx + ccf ny nx f g (sy - 1) sx) / IZR (ny * nx).
Definition curv_x (ny nx : Z) (f g : Z -> Z -> R) (sy sx : Z) : R :=
  (ccf ny nx f g sy (sx + 1) - 2 * ccf ny nx f g sy sx + ccf ny nx f g sy (sx - 1)) / IZR (ny * nx).
Definition mean_sq (ny nx : Z) (f : Z -> Z -> R) : R := pixel_sum ny nx (fun i j => f i j ^ 2) / IZR (ny * nx).

(** what is returned: the third number comes from the curvature along y, the fourth from that along x *)
Theorem C83_error_formula :
  forall e agpy im1 im2 er1 er2 zeromean nthreads use_np allow_huge ny nx sy sx,
  shape im1 = [ny; nx] -> shape im2 = [ny; nx] -> size_ok e allow_huge ny nx -> errim_ok er1 ny nx -> errim_ok er2 ny nx ->
  interior_shift ny sy -> interior_shift nx sx ->
  let f := prep zeromean im1 ny nx in let g := prep zeromean im2 ny nx in
  let N := IZR (ny * nx) in let p := ccf ny nx f g sy sx / N in
  best_roll ny nx f g sy sx -> p <> 0 -> curv_y ny nx f g sy sx <> 0 -> curv_x ny nx f g sy sx <> 0 ->
  (p / (mean_sq ny nx f * mean_sq ny nx g)) ^ 2 <> 1 ->
  exists x y,
    cross_correlation_shifts e agpy im1 im2 er1 er2 None false false zeromean BWrap nthreads use_np allow_huge = Ok [x; y] /\
    cross_correlation_shifts e agpy im1 im2 er1 er2 None false true zeromean BWrap nthreads use_np allow_huge =
      Ok [x; y; XF (zucker_error N (mean_sq ny nx f) (mean_sq ny nx g) p (curv_y ny nx f g sy sx));
                XF (zucker_error N (mean_sq ny nx f) (mean_sq ny nx g) p (curv_x ny nx f g sy sx))].
Proof.
  intros e agpy im1 im2 er1 er2 zm nt np huge ny nx sy sx H1 H2 Hh He1 He2 Iy Ix f g N p Hb Hp Hcy Hcx Hr.
  assert (By := interior_bounds ny sy Iy). assert (Bx := interior_bounds nx sx Ix).
  assert (Hy : (0 < ny)%Z) by lia. assert (Hx : (0 < nx)%Z) by lia. assert (HN := size_pos ny nx Hy Hx). fold N in HN.
  assert (Hc : ccf ny nx f g sy sx <> 0) by (intros Z; apply Hp; unfold p; rewrite Z; unfold Rdiv; ring).
  assert (R0 := xcorr_interior e agpy im1 im2 er1 er2 false zm nt np huge ny nx sy sx H1 H2 Hh He1 He2 Iy Ix Hb Hc).
  assert (R1 := xcorr_interior e agpy im1 im2 er1 er2 true zm nt np huge ny nx sy sx H1 H2 Hh He1 He2 Iy Ix Hb Hc).
  cbv beta zeta in R0, R1. fold f g N in R0, R1. rewrite ?Z.add_0_r in R0. rewrite ?Z.add_0_r in R1. change (ccf ny nx f g sy sx / N) with p in R0, R1.
  assert (Ey : ccf ny nx f g (sy + -1) sx / N + ccf ny nx f g (sy + 1) sx / N - 2 * p = curv_y ny nx f g sy sx).
  { unfold curv_y, p. fold N. replace (sy + -1)%Z with (sy - 1)%Z by lia. field. lra. }
  assert (Ex : ccf ny nx f g sy (sx + 1) / N + ccf ny nx f g sy (sx + -1) / N - 2 * p = curv_x ny nx f g sy sx).
  { unfold curv_x, p. fold N. replace (sx + -1)%Z with (sx - 1)%Z by lia. field. lra. }
  rewrite Ey, Ex in R0. rewrite Ey, Ex in R1.
  assert (Nz : forall h s, sqsum ny nx h = s -> s = 0 -> forall i j, (0 <= i < ny)%Z -> (0 <= j < nx)%Z -> h i j = 0).
  { intros h s E Z i j Hi Hj. subst s. assert (W := sum2_nonneg_0 ny nx (fun i j => h i j ^ 2) ltac:(intros; apply pow2_ge_0) Z i j Hi Hj). cbv beta in W.
    simpl in W. rewrite Rmult_1_r in W. apply Rmult_integral in W. tauto. }
  assert (S1 : sqsum ny nx f <> 0).
  { intros Z. apply Hc. apply sum2_const0. intros i j Hi Hj. rewrite (Nz f _ eq_refl Z); [ring|apply Z.mod_pos_bound; auto|apply Z.mod_pos_bound; auto]. }
  assert (S2 : sqsum ny nx g <> 0).
  { intros Z. apply Hc. apply sum2_const0. intros i j Hi Hj. rewrite (Nz g _ eq_refl Z) by auto. ring. }
  assert (Q : forall d, d <> 0 -> zucker N (sqsum ny nx f) (sqsum ny nx g) p d = XF (zucker_error N (mean_sq ny nx f) (mean_sq ny nx g) p d)).
  { intros d Hd. apply zucker_val; auto; lra. }
  rewrite (Q _ Hcy), (Q _ Hcx) in R1. do 2 eexists. split; [exact R0|]. exact R1.
Qed.
Print Assumptions C83_error_formula.

(** hence the x error is not the one of the curvature along x, unless the curvatures agree *)
Theorem C83_errors_belong_to_the_other_axis_refuted :
  forall e agpy im1 im2 er1 er2 zeromean nthreads use_np allow_huge ny nx sy sx,
  shape im1 = [ny; nx] -> shape im2 = [ny; nx] -> size_ok e allow_huge ny nx -> errim_ok er1 ny nx -> errim_ok er2 ny nx ->
  interior_shift ny sy -> interior_shift nx sx ->
  let f := prep zeromean im1 ny nx in let g := prep zeromean im2 ny nx in
  let N := IZR (ny * nx) in let p := ccf ny nx f g sy sx / N in
  best_roll ny nx f g sy sx -> p <> 0 -> curv_y ny nx f g sy sx <> 0 -> curv_x ny nx f g sy sx <> 0 ->
  (p / (mean_sq ny nx f * mean_sq ny nx g)) ^ 2 <> 1 ->
  Rabs (curv_x ny nx f g sy sx) <> Rabs (curv_y ny nx f g sy sx) ->
  exists x y ex ey,
    cross_correlation_shifts e agpy im1 im2 er1 er2 None false true zeromean BWrap nthreads use_np allow_huge = Ok [x; y; XF ex; XF ey] /\
    ex <> zucker_error N (mean_sq ny nx f) (mean_sq ny nx g) p (curv_x ny nx f g sy sx) /\
    ey <> zucker_error N (mean_sq ny nx f) (mean_sq ny nx g) p (curv_y ny nx f g sy sx) /\
    ex * sqrt (Rabs (curv_y ny nx f g sy sx)) = ey * sqrt (Rabs (curv_x ny nx f g sy sx)).
Proof.
  intros e agpy im1 im2 er1 er2 zm nt np huge ny nx sy sx H1 H2 Hh He1 He2 Iy Ix f g N p Hb Hp Hcy Hcx Hr Hne.
  destruct (C83_error_formula e agpy im1 im2 er1 er2 zm nt np huge ny nx sy sx H1 H2 Hh He1 He2 Iy Ix Hb Hp Hcy Hcx Hr) as [x [y [_ E]]].
  do 4 eexists. split; [exact E|].
  set (e1 := mean_sq ny nx f) in *. set (e2 := mean_sq ny nx g) in *.
  fold f g N in E. fold f g in Hne, Hcy, Hcx. set (cy := curv_y ny nx f g sy sx) in *. set (cx := curv_x ny nx f g sy sx) in *.
  change (ccf ny nx f g sy sx / IZR (ny * nx)) with p. fold f g. fold e1 e2 cy cx.
  set (r := p / (e1 * e2)) in *.
  set (K := N / (e1 * e2) * (r / (1 - r ^ 2))).
  assert (F : forall d, zucker_error N e1 e2 p d = / (sqrt (Rabs K) * sqrt (Rabs d))).
  { intros d. unfold zucker_error. fold r. rewrite <- sqrt_mult by apply Rabs_pos. rewrite <- Rabs_mult. f_equal. f_equal. f_equal. unfold K, Rdiv. ring. }
  assert (By := interior_bounds ny sy Iy). assert (Bx := interior_bounds nx sx Ix).
  assert (HN := size_pos ny nx ltac:(lia) ltac:(lia)). fold N in HN.
  assert (He : e1 * e2 <> 0).
  { intros Z. assert (Zr : r = p * / 0) by (unfold r, Rdiv; rewrite Z; reflexivity).
    (* if a mean square vanished, so would the correlation *)
    assert (Nz : forall h, mean_sq ny nx h = 0 -> forall i j, (0 <= i < ny)%Z -> (0 <= j < nx)%Z -> h i j = 0).
    { intros h Zh i j Hi Hj. unfold mean_sq in Zh. fold N in Zh. apply (Rmult_eq_compat_r N) in Zh. unfold Rdiv in Zh. rewrite Rmult_assoc, Rinv_l, Rmult_1_r, Rmult_0_l in Zh by lra.
      assert (W := sum2_nonneg_0 ny nx (fun i j => h i j ^ 2) ltac:(intros; apply pow2_ge_0) Zh i j Hi Hj). cbv beta in W.
      simpl in W. rewrite Rmult_1_r in W. apply Rmult_integral in W. tauto. }
    apply Hp. unfold p. apply Rmult_integral in Z.
    assert (C0 : ccf ny nx f g sy sx = 0).
    { apply sum2_const0. intros i j Hi Hj. destruct Z as [Z|Z].
      - rewrite (Nz f Z); [ring|apply Z.mod_pos_bound; lia|apply Z.mod_pos_bound; lia].
      - rewrite (Nz g Z) by auto. ring. }
    rewrite C0. unfold Rdiv. ring. }
  assert (Hr0 : r <> 0) by (unfold r, Rdiv; apply Rmult_integral_contrapositive_currified; [exact Hp|apply Rinv_neq_0_compat; auto]).
  assert (HK : K <> 0).
  { assert (D1 : 1 - r ^ 2 <> 0) by (intros Z; apply Hr; lra). assert (HN0 : N <> 0) by lra. clearbody r e1 e2 N.
    unfold K, Rdiv. apply Rmult_integral_contrapositive_currified; apply Rmult_integral_contrapositive_currified; auto using Rinv_neq_0_compat. }
  assert (SK : 0 < sqrt (Rabs K)) by (apply sqrt_lt_R0, Rabs_pos_lt; auto).
  assert (Sy : 0 < sqrt (Rabs cy)) by (apply sqrt_lt_R0, Rabs_pos_lt; auto).
  assert (Sx : 0 < sqrt (Rabs cx)) by (apply sqrt_lt_R0, Rabs_pos_lt; auto).
  rewrite !F.
  assert (D : / (sqrt (Rabs K) * sqrt (Rabs cy)) <> / (sqrt (Rabs K) * sqrt (Rabs cx))).
  { intros Z. apply (f_equal Rinv) in Z. rewrite !Rinv_inv in Z. apply Rmult_eq_reg_l in Z; [|lra]. apply sqrt_inj in Z; try apply Rabs_pos. apply Hne. auto. }
  split; [exact D|]. split; [intros Z; apply D; symmetry; exact Z|]. field. repeat split; lra.
Qed.
Print Assumptions C83_errors_belong_to_the_other_axis_refuted.

Example C83_nonvacuous :
  let f := prep false (dot 4 4 1 1) 4 4 in let g := prep false quad 4 4 in
  interior_shift 4 0 /\ best_roll 4 4 f g 0 0 /\ curv_y 4 4 f g 0 0 = - (1 / 8) /\ curv_x 4 4 f g 0 0 = - (1 / 4) /\ ccf 4 4 f g 0 0 / 16 = 5 / 8.
Proof.
  intros f g. split; [unfold interior_shift; cbn; lia|]. split; [apply quad_best|].
  unfold curv_y, curv_x, f, g. rewrite !quad_ccf. change (IZR (4 * 4)) with 16. cbn. repeat split; lra.
Qed.

(** *** C50: the Gaussian-fit option without the optional package *)
Theorem C50_gaussfit_needs_agpy :
  forall e im1 im2 er1 er2 ret_err zeromean nthreads use_np allow_huge ny nx,
  shape im1 = [ny; nx] -> shape im2 = [ny; nx] -> (0 < ny)%Z -> (0 < nx)%Z -> size_ok e allow_huge ny nx ->
  errim_ok er1 ny nx -> errim_ok er2 ny nx ->
  has_signal ny nx (prep zeromean im1 ny nx) (prep zeromean im2 ny nx) ->
  cross_correlation_shifts e None im1 im2 er1 er2 None true ret_err zeromean BWrap nthreads use_np allow_huge = Raise ImportError.
Proof.
  intros e im1 im2 er1 er2 re zm nt np huge ny nx H1 H2 Hy Hx Hh He1 He2 Hs.
  rewrite (xcorr_eq e None im1 im2 er1 er2 None true re zm nt np huge ny nx) by auto.
  unfold xtail. assert (Q := signal_nonzero ny nx _ _ Hy Hx Hs).
  unfold cmap in Q. cbv zeta. destruct (argmax2 ny nx _) as [y x].
  cbn [fst snd] in Q. match goal with |- context [Req_EM_T ?a 0] => destruct (Req_EM_T a 0) as [Z|Z] end; [exfalso; apply Q; exact Z|reflexivity].
Qed.
Print Assumptions C50_gaussfit_needs_agpy.

(** the error images passed by the user never influence the returned numbers, unless a Gaussian is fitted *)
Theorem C84_error_images_ignored_refuted :
  forall e agpy im1 im2 er1 er2 er1' er2' maxoff gaussfit ret_err zeromean nthreads use_np allow_huge ny nx,
  shape im1 = [ny; nx] -> shape im2 = [ny; nx] -> (0 < ny)%Z -> (0 < nx)%Z -> size_ok e allow_huge ny nx ->
  errim_ok er1 ny nx -> errim_ok er2 ny nx -> errim_ok er1' ny nx -> errim_ok er2' ny nx -> gaussfit && ret_err = false ->
  cross_correlation_shifts e agpy im1 im2 er1 er2 maxoff gaussfit ret_err zeromean BWrap nthreads use_np allow_huge =
  cross_correlation_shifts e agpy im1 im2 er1' er2' maxoff gaussfit ret_err zeromean BWrap nthreads use_np allow_huge.
Proof.
  intros e agpy im1 im2 er1 er2 er1' er2' mo gf re zm nt np huge ny nx H1 H2 Hy Hx Hh E1 E2 E1' E2' HG.
  rewrite !(xcorr_eq e agpy im1 im2) with (ny := ny) (nx := nx) by auto. destruct gf; [|reflexivity]. destruct re; [discriminate|reflexivity].
Qed.
Print Assumptions C84_error_images_ignored_refuted.

(** error images of other shapes: what counts is whether numpy can broadcast the two shapes *)
Definition fits (a b : Z) : Prop := a = b \/ a = 1%Z \/ b = 1%Z.
Lemma corr_any_shape hf gb (x : arr num) y m k ny nx nt np : shape x = [m; k] -> (0 < m)%Z -> (0 < k)%Z -> (0 < ny)%Z -> (0 < nx)%Z ->
  exists c, correlate2d hf gb x (fin_arr [ny; nx] y) BWrap nt np true = Ok c /\ shape c = [m; k].
Proof.
  intros Hs Hm Hk Hy Hx. unfold correlate2d, rev2. cbn [fin_arr shape bind]. unfold convolve_fft, ndim. rewrite Hs. cbn [shape length Nat.eqb negb bind].
  unfold newshape. cbn [orb andb zipw]. destruct (get_ffts hf nt np) as [F I].
  rewrite check_fft_ok by (repeat constructor; lia). cbn [bind]. eexists. split; [reflexivity|]. reflexivity.
Qed.
Theorem C84_error_images_of_other_shapes :
  forall e agpy im1 im2 a1 a2 gaussfit zeromean nthreads use_np ny nx,
  shape im1 = [ny; nx] -> shape im2 = [ny; nx] -> (0 < ny)%Z -> (0 < nx)%Z ->
  let call := fun er1 er2 => cross_correlation_shifts e agpy im1 im2 er1 er2 None gaussfit true zeromean BWrap nthreads use_np true in
  (forall m1 k1 m2 k2, shape a1 = [m1; k1] -> shape a2 = [m2; k2] -> (0 < m1)%Z -> (0 < k1)%Z -> (0 < m2)%Z -> (0 < k2)%Z ->
     (fits m1 m2 /\ fits k1 k2 -> gaussfit = false -> call (Some a1) (Some a2) = call None None) /\
     (~ (fits m1 m2 /\ fits k1 k2) -> has_signal ny nx (prep zeromean im1 ny nx) (prep zeromean im2 ny nx) -> call (Some a1) (Some a2) = Raise ValueError)) /\
  (ndim a1 <> 2%nat -> has_signal ny nx (prep zeromean im1 ny nx) (prep zeromean im2 ny nx) -> forall er2, call (Some a1) er2 = Raise ValueError).
Proof.
  intros e agpy im1 im2 a1 a2 gf zm nt np ny nx H1 H2 Hy Hx call.
  assert (Hh : size_ok e true ny nx) by (left; reflexivity).
  assert (SG : has_signal ny nx (prep zm im1 ny nx) (prep zm im2 ny nx) -> forall er1 er2, exists f2 q1 q2,
    call (Some er1) er2 = let! em := error_corr e er1 (match er2 with None => fin_arr [ny; nx] (fun _ => std [ny; nx] f2) | Some a => a end) [ny; nx] q1 q2 BWrap nt np true in
      xtail agpy ny nx (cmap ny nx (prep zm im1 ny nx) (prep zm im2 ny nx)) (Some (arr_rows em)) (sqsum ny nx (prep zm im1 ny nx)) (sqsum ny nx (prep zm im2 ny nx)) None gf true).
  { intros Hs er1 er2. assert (Q := signal_nonzero ny nx _ _ Hy Hx Hs).
    destruct (xcorr_gen e agpy im1 im2 (Some er1) er2 None gf true zm nt np true ny nx H1 H2 Hy Hx Hh) as [f1 [f2 [_ E]]].
    exists f2, (fun i => f1 i ^ 2), (fun i => f2 i ^ 2). unfold call. rewrite E. fold (cmap ny nx (prep zm im1 ny nx) (prep zm im2 ny nx)).
    destruct (Req_EM_T _ 0) as [Z|Z]; [exfalso; apply Q; exact Z|]. destruct (error_corr _ _ _ _ _ _ _ _ _ _); reflexivity. }
  split.
  - intros m1 k1 m2 k2 S1 S2 P1 P2 P3 P4. split.
    + intros [F1 F2] ->.
      destruct (xcorr_gen e agpy im1 im2 (Some a1) (Some a2) None false true zm nt np true ny nx H1 H2 Hy Hx Hh) as [f1 [f2 [_ E]]].
      destruct (xcorr_gen e agpy im1 im2 None None None false true zm nt np true ny nx H1 H2 Hy Hx Hh) as [f1' [f2' [_ E']]].
      unfold call. rewrite E, E'. 
      destruct (error_corr_ok e None None f1' f2' (fun i => f1' i ^ 2) (fun i => f2' i ^ 2) (fun y x => f1' [y; x]) (fun y x => f2' [y; x])
        (fun y x => f1' [y; x] ^ 2) (fun y x => f2' [y; x] ^ 2) nt np true ny nx Hy Hx Hh I I) as [a [-> _]]; [auto|]. cbn [bind]. unfold error_corr.
      destruct (corr_any_shape (e_fftw e) (e_gb e) (amap num_sq a1) (fun i => f2 i ^ 2) m1 k1 ny nx nt np S1 P1 P2 Hy Hx) as [c1 [-> C1]]. cbn [bind].
      destruct (corr_any_shape (e_fftw e) (e_gb e) (amap num_sq a2) (fun i => f1 i ^ 2) m2 k2 ny nx nt np S2 P3 P4 Hy Hx) as [c2 [-> C2]]. cbn [bind].
      rewrite C1, C2. unfold broadcasts. cbn [combine forallb fst snd]. unfold fits in *.
      replace ((m1 =? m2)%Z || (m1 =? 1)%Z || (m2 =? 1)%Z) with true by (symmetry; rewrite !orb_true_iff, !Z.eqb_eq; tauto).
      replace ((k1 =? k2)%Z || (k1 =? 1)%Z || (k2 =? 1)%Z) with true by (symmetry; rewrite !orb_true_iff, !Z.eqb_eq; tauto). reflexivity.
    + intros NF Hs. destruct (SG Hs a1 (Some a2)) as [f2 [q1 [q2 ->]]]. unfold error_corr.
      destruct (corr_any_shape (e_fftw e) (e_gb e) (amap num_sq a1) q2 m1 k1 ny nx nt np S1 P1 P2 Hy Hx) as [c1 [-> C1]]. cbn [bind].
      destruct (corr_any_shape (e_fftw e) (e_gb e) (amap num_sq a2) q1 m2 k2 ny nx nt np S2 P3 P4 Hy Hx) as [c2 [-> C2]]. cbn [bind].
      rewrite C1, C2. unfold broadcasts. cbn [combine forallb fst snd]. unfold fits in *.
      match goal with |- context [if ?b then _ else _] => replace b with false; [reflexivity|] end.
      symmetry. rewrite andb_true_r. apply not_true_iff_false. rewrite andb_true_iff, !orb_true_iff, !Z.eqb_eq. tauto.
  - intros N2 Hs er2. destruct (SG Hs a1 er2) as [f2 [q1 [q2 ->]]]. unfold error_corr, correlate2d, rev2. cbn [fin_arr shape bind]. unfold convolve_fft.
    destruct (get_ffts (e_fftw e) nt np). replace (Nat.eqb (ndim (amap num_sq a1)) _) with false; [reflexivity|]. symmetry. apply Nat.eqb_neq. exact N2.
Qed.
Print Assumptions C84_error_images_of_other_shapes.
(** error images of shapes 1x4 and 4x1 are accepted, 2x4 and 4x4 are not; one bright pixel is a signal *)
Example C84_shapes_nonvacuous : fits 1 4 /\ fits 4 1 /\ ~ (fits 2 4 /\ fits 4 4) /\ has_signal 4 4 (prep false (dot 4 4 1 1) 4 4) (prep false (dot 4 4 2 2) 4 4).
Proof. split; [|split; [|split]]; try (unfold fits; lia). exact C49_nonvacuous. Qed.
