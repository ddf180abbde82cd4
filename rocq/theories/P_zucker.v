(** C83, continued: the error estimates of cross_correlation_shifts in every case, degenerate ones included *)
From Coq Require Import ZArith Lia List Reals Lra Bool.
From Coquelicot Require Import Complex.
From Verif Require Import Base NDim DFT Kernel Py M_fast_ffts M_shift M_convolve M_correlate Arg M_chi2 M_xcorr
  Spec L_shift L_convolve Sum2 Spec2 L_correlate L_chi2 P_chi2map Spec3 L_fshift L_xcorr P_xcorr P_xcorr2 P_xcorr3 P_xcorr4.
Import ListNotations.
Open Scope R_scope.

(** the reported error for normalised peak r and curvature d *)
Definition reported (N e1 e2 p d : R) (x : xnum) : Prop :=
  let r := p / (e1 * e2) in
  (r ^ 2 <> 1 -> d <> 0 -> x = XF (zucker_error N e1 e2 p d)) /\
  (r ^ 2 <> 1 -> d = 0 -> x = XInf) /\
  (r ^ 2 = 1 -> d <> 0 -> x = XF 0) /\
  (r ^ 2 = 1 -> d = 0 -> x = XNaN).

Lemma zucker_reported N s1 s2 p d : N <> 0 -> s1 <> 0 -> s2 <> 0 -> p <> 0 -> reported N (s1 / N) (s2 / N) p d (zucker N s1 s2 p d).
Proof.
  intros HN H1 H2 Hp. split; [intros; apply zucker_val; auto|].
  assert (A1 : s1 / N <> 0) by (unfold Rdiv; apply Rmult_integral_contrapositive_currified; auto using Rinv_neq_0_compat).
  assert (A2 : s2 / N <> 0) by (unfold Rdiv; apply Rmult_integral_contrapositive_currified; auto using Rinv_neq_0_compat).
  unfold zucker. rewrite (xdiv_ok 1 (s1 / N)), xdiv_ok by auto. cbn [xmul].
  set (e1 := s1 / N) in *. set (e2 := s2 / N) in *.
  assert (Er : p * (1 / e1 / e2) = p / (e1 * e2)) by (field; auto). rewrite Er.
  set (r := p / (e1 * e2)) in *.
  assert (Hr0 : r <> 0) by (unfold r, Rdiv; apply Rmult_integral_contrapositive_currified; [auto|apply Rinv_neq_0_compat, Rmult_integral_contrapositive_currified; auto]).
  assert (Hn : 1 / e1 / e2 <> 0) by (unfold Rdiv; repeat apply Rmult_integral_contrapositive_currified; auto using Rinv_neq_0_compat; lra).
  assert (Q : 1 - r * r = 0 <-> r ^ 2 = 1) by (replace (r ^ 2) with (r * r) by ring; split; lra).
  assert (Hrr : r * r <> 0) by (apply Rmult_integral_contrapositive_currified; auto).
  assert (Z : -1 * N * d * (1 / e1 / e2) / r = 0 <-> d = 0).
  { split; [|intros ->; unfold Rdiv; ring]. intros E. apply Rmult_integral in E. destruct E as [E|E]; [|exfalso; apply (Rinv_neq_0_compat r); auto].
    apply Rmult_integral in E. destruct E as [E|E]; [|contradiction]. apply Rmult_integral in E. destruct E as [E|E]; [|auto]. lra. }
  rewrite (xdiv_ok _ r) by auto. set (q := -1 * N * d * (1 / e1 / e2) / r) in *.
  cbn [xdiv]. destruct (Req_EM_T (1 - r * r) 0) as [E|E].
  - destruct (Req_EM_T (r * r) 0) as [|_]; [contradiction|]. cbn [xmul]. destruct (Req_EM_T q 0) as [Eq|Eq]; cbn [xabs_pow_mhalf].
    + apply Q in E. apply Z in Eq. split; [intros N1; contradiction|]. split; [intros _ N2; contradiction|]. auto.
    + apply Q in E. split; [intros N1; contradiction|]. split; [auto|]. intros _ D. apply Z in D. contradiction.
  - assert (E' : r ^ 2 <> 1) by (intros F; apply E, Q, F). cbn [xmul xabs_pow_mhalf].
    split; [|split; intros F; contradiction]. intros _ D. apply Z in D. rewrite D, Rmult_0_l. destruct (Req_EM_T 0 0); [reflexivity|lra].
Qed.

(** when the third number would be NaN the call raises; a NaN fourth number is returned *)
Theorem C83_error_every_case :
  forall e agpy im1 im2 er1 er2 zeromean nthreads use_np allow_huge ny nx sy sx,
  shape im1 = [ny; nx] -> shape im2 = [ny; nx] -> size_ok e allow_huge ny nx -> errim_ok er1 ny nx -> errim_ok er2 ny nx ->
  interior_shift ny sy -> interior_shift nx sx ->
  let f := prep zeromean im1 ny nx in let g := prep zeromean im2 ny nx in
  let N := IZR (ny * nx) in let p := ccf ny nx f g sy sx / N in
  let e1 := mean_sq ny nx f in let e2 := mean_sq ny nx g in
  best_roll ny nx f g sy sx -> p <> 0 ->
  let result := cross_correlation_shifts e agpy im1 im2 er1 er2 None false true zeromean BWrap nthreads use_np allow_huge in
  if Req_EM_T ((p / (e1 * e2)) ^ 2) 1 then
    (curv_y ny nx f g sy sx = 0 -> result = Raise ValueError) /\
    (curv_y ny nx f g sy sx <> 0 -> exists x y ey, result = Ok [x; y; XF 0; ey] /\ reported N e1 e2 p (curv_x ny nx f g sy sx) ey)
  else exists x y ex ey, result = Ok [x; y; ex; ey] /\ reported N e1 e2 p (curv_y ny nx f g sy sx) ex /\ reported N e1 e2 p (curv_x ny nx f g sy sx) ey.
Proof.
  intros e agpy im1 im2 er1 er2 zm nt np huge ny nx sy sx H1 H2 Hh He1 He2 Iy Ix f g N p e1 e2 Hb Hp result.
  assert (By := interior_bounds ny sy Iy). assert (Bx := interior_bounds nx sx Ix).
  assert (Hy : (0 < ny)%Z) by lia. assert (Hx : (0 < nx)%Z) by lia. assert (HN := size_pos ny nx Hy Hx). fold N in HN.
  assert (Hc : ccf ny nx f g sy sx <> 0) by (intros Z; apply Hp; unfold p; rewrite Z; unfold Rdiv; ring).
  assert (R1 := xcorr_interior e agpy im1 im2 er1 er2 true zm nt np huge ny nx sy sx H1 H2 Hh He1 He2 Iy Ix Hb Hc).
  cbv beta zeta in R1. fold f g N in R1. rewrite ?Z.add_0_r in R1. change (ccf ny nx f g sy sx / N) with p in R1.
  assert (Ey : ccf ny nx f g (sy + -1) sx / N + ccf ny nx f g (sy + 1) sx / N - 2 * p = curv_y ny nx f g sy sx).
  { unfold curv_y, p. fold N. replace (sy + -1)%Z with (sy - 1)%Z by lia. field. lra. }
  assert (Ex : ccf ny nx f g sy (sx + 1) / N + ccf ny nx f g sy (sx + -1) / N - 2 * p = curv_x ny nx f g sy sx).
  { unfold curv_x, p. fold N. replace (sx + -1)%Z with (sx - 1)%Z by lia. field. lra. }
  rewrite Ey, Ex in R1. fold result in R1.
  assert (Nz : forall h s, sqsum ny nx h = s -> s = 0 -> forall i j, (0 <= i < ny)%Z -> (0 <= j < nx)%Z -> h i j = 0).
  { intros h s E Z i j Hi Hj. subst s. assert (W := sum2_nonneg_0 ny nx (fun i j => h i j ^ 2) ltac:(intros; apply pow2_ge_0) Z i j Hi Hj). cbv beta in W.
    simpl in W. rewrite Rmult_1_r in W. apply Rmult_integral in W. tauto. }
  assert (S1 : sqsum ny nx f <> 0).
  { intros Z. apply Hc. apply sum2_const0. intros i j Hi Hj. rewrite (Nz f _ eq_refl Z); [ring|apply Z.mod_pos_bound; auto|apply Z.mod_pos_bound; auto]. }
  assert (S2 : sqsum ny nx g <> 0).
  { intros Z. apply Hc. apply sum2_const0. intros i j Hi Hj. rewrite (Nz g _ eq_refl Z) by auto. ring. }
  assert (Q : forall d, reported N e1 e2 p d (zucker N (sqsum ny nx f) (sqsum ny nx g) p d)) by (intros d; apply zucker_reported; auto; lra).
  assert (Qy := Q (curv_y ny nx f g sy sx)). assert (Qx := Q (curv_x ny nx f g sy sx)).
  set (zy := zucker N (sqsum ny nx f) (sqsum ny nx g) p (curv_y ny nx f g sy sx)) in *.
  set (zx := zucker N (sqsum ny nx f) (sqsum ny nx g) p (curv_x ny nx f g sy sx)) in *.
  assert (Qy' := Qy). destruct Qy as [Y1 [Y2 [Y3 Y4]]].
  destruct (Req_EM_T ((p / (e1 * e2)) ^ 2) 1) as [E|E].
  - split.
    + intros D. rewrite (Y4 E D) in R1. exact R1.
    + intros D. rewrite (Y3 E D) in R1. do 3 eexists. split; [exact R1|exact Qx].
  - destruct (Req_EM_T (curv_y ny nx f g sy sx) 0) as [D|D].
    + assert (Z := Y2 E D). rewrite Z in R1, Qy'. do 4 eexists. split; [exact R1|]. split; [exact Qy'|exact Qx].
    + assert (Z := Y1 E D). rewrite Z in R1, Qy'. do 4 eexists. split; [exact R1|]. split; [exact Qy'|exact Qx].
Qed.
Print Assumptions C83_error_every_case.

(** so the errors are exactly zero when one image is the other rolled, in units in which the mean square is 1 *)
Theorem C83_zero_errors_refuted :
  forall e agpy im1 im2 er1 er2 zeromean nthreads use_np allow_huge ny nx dy dx,
  is_roll im1 im2 ny nx dy dx -> size_ok e allow_huge ny nx -> errim_ok er1 ny nx -> errim_ok er2 ny nx ->
  interior_shift ny dy -> interior_shift nx dx -> no_symmetry ny nx (prep zeromean im1 ny nx) ->
  mean_sq ny nx (prep zeromean im1 ny nx) = 1 ->
  exists x y, cross_correlation_shifts e agpy im1 im2 er1 er2 None false true zeromean BWrap nthreads use_np allow_huge = Ok [x; y; XF 0; XF 0].
Proof.
  intros e agpy im1 im2 er1 er2 zm nt np huge ny nx dy dx Hr Hs He1 He2 Iy Ix Hn Hm.
  assert (By := interior_bounds ny dy Iy). assert (Bx := interior_bounds nx dx Ix).
  assert (Hy : (0 < ny)%Z) by lia. assert (Hx : (0 < nx)%Z) by lia.
  assert (Hr' := Hr). destruct Hr' as [S1 [S2 Hg]].
  set (f := prep zm im1 ny nx) in *. set (g := prep zm im2 ny nx).
  assert (Hfg : forall y x, (0 <= y < ny)%Z -> (0 <= x < nx)%Z -> g y x = f ((y - dy) mod ny)%Z ((x - dx) mod nx)%Z) by (intros; apply prep_roll; auto).
  assert (Hb : best_roll ny nx f g dy dx) by (apply best_of_roll; auto).
  assert (N0 := size_pos ny nx Hy Hx). set (N := IZR (ny * nx)) in *.
  assert (A0 : ccf ny nx f f 0 0 = pixel_sum ny nx (fun i j => f i j ^ 2)).
  { apply sum2_ext. intros i j Hi Hj. rewrite !Z.sub_0_r, !Z.mod_small by auto. ring. }
  assert (P1 : ccf ny nx f g dy dx / N = 1).
  { rewrite (ccf_roll ny nx f g dy dx) by auto. rewrite !Z.sub_diag, A0. exact Hm. }
  assert (M2 : mean_sq ny nx g = 1).
  { rewrite <- Hm. unfold mean_sq. f_equal.
    transitivity (ccf ny nx g g 0 0). { symmetry. apply sum2_ext. intros i j Hi Hj. rewrite !Z.sub_0_r, !Z.mod_small by auto. ring. }
    rewrite <- A0. unfold ccf. rewrite (sum2_ext ny nx _ (fun i j => (fun y x => f y x * f y x) ((i + - dy) mod ny)%Z ((j + - dx) mod nx)%Z)).
    2:{ intros i j Hi Hj. rewrite !Z.sub_0_r, !Z.mod_small, Hfg by auto. reflexivity. }
    rewrite (sum2_shift ny nx (fun i j => f i j * f i j) (- dy) (- dx)) by auto. apply sum2_ext. intros i j Hi Hj. rewrite !Z.sub_0_r, !Z.mod_small by auto. reflexivity. }
  assert (T := C83_error_every_case e agpy im1 im2 er1 er2 zm nt np huge ny nx dy dx S1 S2 Hs He1 He2 Iy Ix). cbv beta zeta in T. fold f g N in T.
  specialize (T Hb). rewrite P1, Hm, M2 in T. specialize (T ltac:(lra)).
  destruct (Req_EM_T ((1 / (1 * 1)) ^ 2) 1) as [E|E]; [|exfalso; apply E; field].
  assert (C : forall s t, ((s - dy) mod ny <> 0 \/ (t - dx) mod nx <> 0)%Z -> ccf ny nx f g s t < ccf ny nx f g dy dx) by exact Hb.
  assert (One : forall n d k, (2 <= n)%Z -> (k = 1 \/ k = -1)%Z -> ((d + k - d) mod n <> 0)%Z).
  { intros n d k Hn2 Hk H. replace (d + k - d)%Z with k in H by lia. destruct Hk as [-> | ->]; apply mod0_small in H; lia. }
  assert (L : forall a b c, a < b -> c < b -> (a - 2 * b + c) / N <> 0).
  { intros a b c H1 H2 H. apply Rmult_integral in H. destruct H as [H|H]; [lra|]. revert H. apply Rinv_neq_0_compat. lra. }
  assert (Cy : curv_y ny nx f g dy dx <> 0).
  { apply L; apply C; left; [|replace (dy - 1)%Z with (dy + -1)%Z by lia]; apply One; unfold interior_shift in Iy; lia. }
  assert (Cx : curv_x ny nx f g dy dx <> 0).
  { apply L; apply C; right; [|replace (dx - 1)%Z with (dx + -1)%Z by lia]; apply One; unfold interior_shift in Ix; lia. }
  destruct T as [_ T]. destruct (T Cy) as [x [y [ey [R Q]]]]. destruct Q as [_ [_ [Q _]]]. rewrite (Q E Cx) in R. exists x, y. exact R.
Qed.
Print Assumptions C83_zero_errors_refuted.

(** one pixel of value 4 on 4 x 4 *)
Example C83_zero_errors_nonvacuous :
  let im := scale_img 4 (dot 4 4 1 1) in is_roll im im 4 4 0 0 /\ interior_shift 4 0 /\ no_symmetry 4 4 (prep false im 4 4) /\ mean_sq 4 4 (prep false im 4 4) = 1.
Proof.
  intros im. split; [split; [reflexivity|]; split; [reflexivity|]; intros y x Hy Hx; rewrite !Z.sub_0_r, !Z.mod_small by auto; reflexivity|].
  split; [unfold interior_shift; cbn; lia|]. split.
  - intros s t H. apply (dot_no_symmetry 4 4 1 1 ltac:(lia) ltac:(lia)). intros y x HY HX. specialize (H y x HY HX). unfold im in H.
    rewrite !prep_scale in H. lra.
  - unfold mean_sq. change (IZR (4 * 4)) with 16. transitivity (ccf 4 4 (prep false im 4 4) (prep false im 4 4) 0 0 / 16).
    + f_equal. symmetry. apply sum2_ext. intros i j Hi Hj. rewrite !Z.sub_0_r, !Z.mod_small by auto. ring.
    + unfold im. rewrite scaled_dot_ccf. change (((1 + 0) mod 4 =? 1) && ((1 + 0) mod 4 =? 1))%Z with true. cbv iota. field.
Qed.
