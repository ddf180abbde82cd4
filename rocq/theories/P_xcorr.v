(** Properties C45-C50 (and C71, C72): cross_correlation_shifts, second_derivative *)
From Coq Require Import ZArith Lia List Reals Lra Bool.
From Coquelicot Require Import Complex.
From Verif Require Import Base NDim DFT Kernel Py M_fast_ffts M_shift M_convolve M_correlate Arg M_chi2 M_xcorr
  Sum2 Spec2 Spec3 L_correlate L_chi2 L_chi2shift L_fshift L_xcorr P_chi2errors.
Import ListNotations.
Open Scope R_scope.

(** the reported value is larger by this much than it should be: 1/2 for an odd number of pixels *)
Definition half_if_odd (n : Z) : R := if Z.odd n then 1 / 2 else 0.
(** a shift by s pixels along an axis of n pixels that puts the correlation peak neither on the first nor on the last pixel *)
Definition interior_shift (n s : Z) : Prop := (- (n / 2) < s < (n - 1) / 2)%Z.

(** *** facts about ccf *)
Lemma ccf_mod ny nx f g s t s' t' : (0 < ny)%Z -> (0 < nx)%Z -> ((s - s') mod ny = 0)%Z -> ((t - t') mod nx = 0)%Z ->
  ccf ny nx f g s t = ccf ny nx f g s' t'.
Proof.
  intros Hy Hx Hs Ht. apply sum2_ext. intros i j Hi Hj. f_equal.
  assert (G : forall n a b i, (0 < n)%Z -> ((a - b) mod n = 0)%Z -> ((i - a) mod n = (i - b) mod n)%Z).
  { intros n a b k Hn E. replace (k - b)%Z with (k - a + (a - b))%Z by lia. rewrite Zplus_mod, E, Z.add_0_r, Zmod_mod. reflexivity. }
  f_equal; apply G; auto.
Qed.

Lemma ccf_roll ny nx f g dy dx s t : (0 < ny)%Z -> (0 < nx)%Z ->
  (forall y x, (0 <= y < ny)%Z -> (0 <= x < nx)%Z -> g y x = f ((y - dy) mod ny)%Z ((x - dx) mod nx)%Z) ->
  ccf ny nx f g s t = ccf ny nx f f (s - dy) (t - dx).
Proof.
  intros Hy Hx H. unfold ccf. change (pixel_sum ny nx) with (sum2 ny nx).
  rewrite <- (sum2_shift ny nx (fun i j => f ((i - (s - dy)) mod ny)%Z ((j - (t - dx)) mod nx)%Z * f i j) (- dy) (- dx)) by auto.
  apply sum2_ext. intros i j Hi Hj. rewrite H by auto. f_equal. rewrite !Zminus_mod_idemp_l. f_equal; f_equal; lia.
Qed.

Lemma ccf_auto_gap ny nx f s t : (0 < ny)%Z -> (0 < nx)%Z ->
  ccf ny nx f f 0 0 - ccf ny nx f f s t =
  sum2 ny nx (fun i j => (f ((i - s) mod ny)%Z ((j - t) mod nx)%Z - f i j) ^ 2) / 2.
Proof.
  intros Hy Hx. unfold ccf. change (pixel_sum ny nx) with (sum2 ny nx).
  assert (E : sum2 ny nx (fun i j => f ((i - s) mod ny)%Z ((j - t) mod nx)%Z ^ 2) = sum2 ny nx (fun i j => f i j ^ 2)).
  { rewrite <- (sum2_shift ny nx (fun i j => f i j ^ 2) (- s) (- t)) by auto. apply sum2_ext. intros. reflexivity. }
  rewrite (sum2_ext ny nx (fun i j => f ((i - 0) mod ny)%Z ((j - 0) mod nx)%Z * f i j) (fun i j => f i j ^ 2)).
  2:{ intros i j Hi Hj. rewrite !Z.sub_0_r, !Z.mod_small by auto. ring. }
  rewrite (sum2_ext ny nx (fun i j => (f ((i - s) mod ny)%Z ((j - t) mod nx)%Z - f i j) ^ 2)
    (fun i j => f ((i - s) mod ny)%Z ((j - t) mod nx)%Z ^ 2 + f i j ^ 2 - 2 * (f ((i - s) mod ny)%Z ((j - t) mod nx)%Z * f i j))) by (intros; ring).
  rewrite sum2_minus, sum2_plus, sum2_scal, E. field.
Qed.

Lemma auto_strict ny nx f s t : (0 < ny)%Z -> (0 < nx)%Z -> no_symmetry ny nx f -> (s mod ny <> 0 \/ t mod nx <> 0)%Z ->
  ccf ny nx f f s t < ccf ny nx f f 0 0.
Proof.
  intros Hy Hx Hn H. assert (G := ccf_auto_gap ny nx f s t Hy Hx).
  assert (P : forall i j, (0 <= i < ny)%Z -> (0 <= j < nx)%Z -> 0 <= (f ((i - s) mod ny)%Z ((j - t) mod nx)%Z - f i j) ^ 2) by (intros; apply pow2_ge_0).
  assert (Q := sum2_nonneg ny nx (fun i j => (f ((i - s) mod ny)%Z ((j - t) mod nx)%Z - f i j) ^ 2) P). cbv beta in Q.
  destruct (Req_EM_T (sum2 ny nx (fun i j => (f ((i - s) mod ny)%Z ((j - t) mod nx)%Z - f i j) ^ 2)) 0) as [E|E]; [|lra].
  exfalso. destruct (Hn s t) as [H1 H2]; [|tauto]. intros y x HY HX.
  assert (W := sum2_nonneg_0 ny nx (fun i j => (f ((i - s) mod ny)%Z ((j - t) mod nx)%Z - f i j) ^ 2) P E y x HY HX). cbv beta in W.
  simpl in W. rewrite Rmult_1_r in W. apply Rmult_integral in W. destruct W; lra.
Qed.

Lemma best_of_roll ny nx f g dy dx : (0 < ny)%Z -> (0 < nx)%Z ->
  (forall y x, (0 <= y < ny)%Z -> (0 <= x < nx)%Z -> g y x = f ((y - dy) mod ny)%Z ((x - dx) mod nx)%Z) ->
  no_symmetry ny nx f -> best_roll ny nx f g dy dx.
Proof.
  intros Hy Hx H Hn s t Hst. rewrite !(ccf_roll ny nx f g dy dx) by auto. rewrite !Z.sub_diag. apply auto_strict; auto.
Qed.

(** the correlation map seen by the code *)
Definition cmap (ny nx : Z) (f g : Z -> Z -> R) (k l : Z) : R := ccf ny nx f g ((ny - 1) / 2 - k) ((nx - 1) / 2 - l) / IZR (ny * nx).

Lemma size_pos ny nx : (0 < ny)%Z -> (0 < nx)%Z -> 0 < IZR (ny * nx).
Proof. intros. apply IZR_lt. nia. Qed.

Lemma mod0_small n a : (0 < n)%Z -> (- n < a < n)%Z -> (a mod n = 0)%Z -> a = 0%Z.
Proof. intros Hn Ha H. apply Z.mod_divide in H; [|lia]. destruct H as [k Hk]. assert (k = 0)%Z by nia. subst. lia. Qed.

Lemma best_argmax ny nx f g sy sx : (0 < ny)%Z -> (0 < nx)%Z -> best_roll ny nx f g sy sx ->
  (0 <= (ny - 1) / 2 - sy < ny)%Z -> (0 <= (nx - 1) / 2 - sx < nx)%Z ->
  argmax2 ny nx (cmap ny nx f g) = ((ny - 1) / 2 - sy, (nx - 1) / 2 - sx)%Z.
Proof.
  intros Hy Hx Hb H1 H2. apply argmin2_strict; auto. intros i j Hi Hj Hn. apply Ropp_lt_contravar. unfold cmap.
  unfold Rdiv. apply Rmult_lt_compat_r; [apply Rinv_0_lt_compat, size_pos; auto|].
  replace ((ny - 1) / 2 - ((ny - 1) / 2 - sy))%Z with sy by lia. replace ((nx - 1) / 2 - ((nx - 1) / 2 - sx))%Z with sx by lia.
  apply Hb. destruct (Z.eq_dec i ((ny - 1) / 2 - sy)) as [->|Ni].
  - right. intros E. assert (G : ((nx - 1) / 2 - j - sx = 0)%Z) by (apply (mod0_small nx); auto; lia). apply Hn. f_equal. lia.
  - left. intros E. assert (G : ((ny - 1) / 2 - i - sy = 0)%Z) by (apply (mod0_small ny); auto; lia). lia.
Qed.

Lemma interior_bounds n s : interior_shift n s -> (1 <= (n - 1) / 2 - s <= n - 2)%Z.
Proof. unfold interior_shift. intros H. Z.to_euclidean_division_equations; lia. Qed.

(** result of a call whose correlation has a strict interior maximum *)
Lemma xcorr_interior e agpy im1 im2 er1 er2 re zm nt np huge ny nx sy sx :
  shape im1 = [ny; nx] -> shape im2 = [ny; nx] -> size_ok e huge ny nx -> errim_ok er1 ny nx -> errim_ok er2 ny nx ->
  interior_shift ny sy -> interior_shift nx sx ->
  let f := prep zm im1 ny nx in let g := prep zm im2 ny nx in
  let c := fun u v => ccf ny nx f g (sy + u) (sx + v) / IZR (ny * nx) in
  best_roll ny nx f g sy sx -> ccf ny nx f g sy sx <> 0 ->
  let fx := (c 0%Z (-1)%Z - c 0%Z 1%Z) / 2 in let fy := (c (-1)%Z 0%Z - c 1%Z 0%Z) / 2 in
  let fxx := c (-1)%Z 0%Z + c 1%Z 0%Z - 2 * c 0%Z 0%Z in let fyy := c 0%Z 1%Z + c 0%Z (-1)%Z - 2 * c 0%Z 0%Z in
  let fxy := 1 / 4 * (c (-1)%Z 1%Z + c 1%Z (-1)%Z - c (-1)%Z (-1)%Z - c 1%Z 1%Z) in
  let z := zucker (IZR (ny * nx)) (sqsum ny nx f) (sqsum ny nx g) (c 0%Z 0%Z) in
  let x := xnegadd (- IZR sx - half_if_odd nx) (xdiv (XF (fyy * fx - fy * fxy)) (XF (fxy ^ 2 - fxx * fyy))) in
  let y := xnegadd (- IZR sy - half_if_odd ny) (xdiv (XF (fxx * fy - fx * fxy)) (XF (fxy ^ 2 - fxx * fyy))) in
  cross_correlation_shifts e agpy im1 im2 er1 er2 None false re zm BWrap nt np huge =
  if re then match z fxx with XNaN => Raise ValueError | ex => Ok [x; y; ex; z fyy] end else Ok [x; y].
Proof.
  intros H1 H2 Hh He1 He2 Iy Ix f g c Hb Hc fx fy fxx fyy fxy z x y.
  apply interior_bounds in Iy. apply interior_bounds in Ix.
  assert (Hy : (0 < ny)%Z) by (Z.to_euclidean_division_equations; lia). assert (Hx : (0 < nx)%Z) by (Z.to_euclidean_division_equations; lia).
  rewrite (xcorr_eq e agpy im1 im2 er1 er2 None false re zm nt np huge ny nx) by auto.
  fold f g. change (fun k l => ccf ny nx f g ((ny - 1) / 2 - k) ((nx - 1) / 2 - l) / IZR (ny * nx)) with (cmap ny nx f g).
  unfold xtail. rewrite (best_argmax ny nx f g sy sx) by (auto; lia).
  assert (M : forall a b u v, (((ny - 1) / 2 - a) - sy = u)%Z -> (((nx - 1) / 2 - b) - sx = v)%Z -> cmap ny nx f g a b = c u v).
  { intros a b u v Ea Eb. unfold cmap, c. f_equal. f_equal; lia. }
  rewrite (M _ _ 0%Z 0%Z) by lia.
  destruct (Req_EM_T (c 0%Z 0%Z) 0) as [Z0|Z0].
  { exfalso. apply Hc. unfold c in Z0. rewrite !Z.add_0_r in Z0. assert (P := size_pos ny nx Hy Hx).
    apply (Rmult_eq_compat_r (IZR (ny * nx))) in Z0. unfold Rdiv in Z0. rewrite Rmult_assoc, Rinv_l, Rmult_1_r, Rmult_0_l in Z0 by lra. exact Z0. }
  rewrite derivs_mid by lia.
  rewrite (M _ ((nx - 1) / 2 - sx + 1)%Z 0%Z (-1)%Z), (M _ ((nx - 1) / 2 - sx - 1)%Z 0%Z 1%Z) by lia.
  rewrite (M ((ny - 1) / 2 - sy + 1)%Z _ (-1)%Z 0%Z), (M ((ny - 1) / 2 - sy - 1)%Z _ 1%Z 0%Z) by lia.
  rewrite (M ((ny - 1) / 2 - sy + 1)%Z _ (-1)%Z 1%Z), (M ((ny - 1) / 2 - sy - 1)%Z _ 1%Z (-1)%Z) by lia.
  rewrite (M ((ny - 1) / 2 - sy + 1)%Z _ (-1)%Z (-1)%Z), (M ((ny - 1) / 2 - sy - 1)%Z _ 1%Z 1%Z) by lia.
  rewrite (M _ _ 0%Z 0%Z) by lia. cbn [bind].
  replace (IZR ((nx - 1) / 2 - sx) - ccen nx) with (- IZR sx - half_if_odd nx) by (rewrite ccen_val, minus_IZR; unfold half_if_odd; ring).
  replace (IZR ((ny - 1) / 2 - sy) - ccen ny) with (- IZR sy - half_if_odd ny) by (rewrite ccen_val, minus_IZR; unfold half_if_odd; ring).
  reflexivity.
Qed.

Lemma xdiv_0 d : d <> 0 -> xdiv (XF 0) (XF d) = XF 0.
Proof. intros H. simpl. destruct (Req_EM_T d 0); [contradiction|]. f_equal. unfold Rdiv. ring. Qed.
Lemma xdiv_ok a d : d <> 0 -> xdiv (XF a) (XF d) = XF (a / d).
Proof. intros H. simpl. destruct (Req_EM_T d 0); [contradiction|]. reflexivity. Qed.

Lemma zucker_not_nan N s1 s2 p d : N <> 0 -> s1 <> 0 -> s2 <> 0 -> p <> 0 -> d <> 0 -> zucker N s1 s2 p d <> XNaN.
Proof.
  intros HN H1 H2 Hp Hd. unfold zucker.
  assert (A1 : s1 / N <> 0) by (unfold Rdiv; apply Rmult_integral_contrapositive_currified; auto using Rinv_neq_0_compat).
  assert (A2 : s2 / N <> 0) by (unfold Rdiv; apply Rmult_integral_contrapositive_currified; auto using Rinv_neq_0_compat).
  rewrite (xdiv_ok 1 (s1 / N)), xdiv_ok by auto. cbn [xmul].
  set (nrm := 1 / (s1 / N) / (s2 / N)).
  assert (Hn : nrm <> 0).
  { unfold nrm. replace (1 / (s1 / N) / (s2 / N)) with (/ (s1 / N) * / (s2 / N)) by (field; auto).
    apply Rmult_integral_contrapositive_currified; apply Rinv_neq_0_compat; auto. }
  assert (Hc : p * nrm <> 0) by (apply Rmult_integral_contrapositive_currified; auto).
  rewrite xdiv_ok by auto.
  assert (Hq : -1 * N * d * nrm / (p * nrm) <> 0).
  { unfold Rdiv. repeat apply Rmult_integral_contrapositive_currified; auto using Rinv_neq_0_compat; apply Rlt_not_eq; lra. }
  assert (Hcc : p * nrm * (p * nrm) <> 0) by (apply Rmult_integral_contrapositive_currified; auto).
  cbn [xdiv]. destruct (Req_EM_T (1 - p * nrm * (p * nrm)) 0) as [E|E].
  - destruct (Req_EM_T (p * nrm * (p * nrm)) 0); [contradiction|]. cbn [xmul]. destruct (Req_EM_T (-1 * N * d * nrm / (p * nrm)) 0); [contradiction|].
    discriminate.
  - cbn [xmul xabs_pow_mhalf]. match goal with |- context [Req_EM_T ?a 0] => destruct (Req_EM_T a 0) end; discriminate.
Qed.

(** *** C45, C46: whole-pixel rolls *)
Theorem C45_roll_result_all_sizes :
  forall e agpy im1 im2 er1 er2 ret_err zeromean nthreads use_np allow_huge ny nx dy dx,
  is_roll im1 im2 ny nx dy dx -> size_ok e allow_huge ny nx -> errim_ok er1 ny nx -> errim_ok er2 ny nx ->
  interior_shift ny dy -> interior_shift nx dx -> no_symmetry ny nx (prep zeromean im1 ny nx) ->
  exists rest,
    cross_correlation_shifts e agpy im1 im2 er1 er2 None false ret_err zeromean BWrap nthreads use_np allow_huge =
      Ok (XF (IZR dx + half_if_odd nx) :: XF (IZR dy + half_if_odd ny) :: rest) /\
    length rest = if ret_err then 2%nat else 0%nat.
Proof.
  intros e agpy im1 im2 er1 er2 re zm nt np huge ny nx dy dx Hr Hh He1 He2 Iy Ix Hn.
  assert (By := interior_bounds ny dy Iy). assert (Bx := interior_bounds nx dx Ix).
  assert (Hy : (3 <= ny)%Z) by lia. assert (Hx : (3 <= nx)%Z) by lia.
  set (f := prep zm im1 ny nx) in *. set (g := prep zm im2 ny nx) in *.
  assert (Hg : forall y x, (0 <= y < ny)%Z -> (0 <= x < nx)%Z -> g y x = f ((y - dy) mod ny)%Z ((x - dx) mod nx)%Z).
  { intros y x HY HX. apply (prep_roll zm im1 im2 ny nx dy dx); auto; lia. }
  assert (Cg : forall u v, ccf ny nx f g (dy + u) (dx + v) = ccf ny nx f f u v).
  { intros u v. rewrite (ccf_roll ny nx f g dy dx) by (auto; lia). f_equal; lia. }
  assert (Hb : best_roll ny nx f g dy dx) by (apply best_of_roll; auto; lia).
  set (A := ccf ny nx f f) in *.
  assert (Sx : A 0%Z 1%Z < A 0%Z 0%Z) by (apply auto_strict; auto; try lia; right; rewrite Z.mod_small; lia).
  assert (Sy : A 1%Z 0%Z < A 0%Z 0%Z) by (apply auto_strict; auto; try lia; left; rewrite Z.mod_small; lia).
  assert (Hs := auto_hessian ny nx f ltac:(lia) ltac:(lia) Sx Sy). fold A in Hs.
  assert (Sym := fun s t => auto_sym ny nx f ltac:(lia) ltac:(lia) s t). fold A in Sym.
  assert (E1 : A (-1)%Z 0%Z = A 1%Z 0%Z) by exact (Sym 1%Z 0%Z).
  assert (E2 : A 0%Z (-1)%Z = A 0%Z 1%Z) by exact (Sym 0%Z 1%Z).
  assert (E3 : A (-1)%Z 1%Z = A 1%Z (-1)%Z) by exact (Sym 1%Z (-1)%Z).
  assert (E4 : A (-1)%Z (-1)%Z = A 1%Z 1%Z) by exact (Sym 1%Z 1%Z).
  assert (E00 : A 0%Z 0%Z = sqsum ny nx f).
  { unfold A, ccf, sqsum. apply sum2_ext. intros i j Hi Hj. rewrite !Z.sub_0_r, !Z.mod_small by auto. ring. }
  assert (Ap : 0 < A 0%Z 0%Z).
  { assert (0 <= A 0%Z 0%Z) by (rewrite E00; apply sum2_nonneg; intros; apply pow2_ge_0).
    destruct (Req_EM_T (A 0%Z 0%Z) 0) as [E|E]; [|lra]. exfalso. rewrite E00 in E.
    assert (Z : forall i j, (0 <= i < ny)%Z -> (0 <= j < nx)%Z -> f i j = 0).
    { intros i j Hi Hj. assert (W := sum2_nonneg_0 ny nx (fun i j => f i j ^ 2) ltac:(intros; apply pow2_ge_0) E i j Hi Hj). cbv beta in W.
      simpl in W. rewrite Rmult_1_r in W. apply Rmult_integral in W. tauto. }
    destruct (Hn 1%Z 0%Z) as [W _]; [|rewrite Z.mod_small in W; lia].
    intros y x HY HX. rewrite !Z by (auto; apply Z.mod_pos_bound; lia). reflexivity. }
  assert (Np := size_pos ny nx ltac:(lia) ltac:(lia)). set (N := IZR (ny * nx)) in *.
  assert (Eg : sqsum ny nx g = sqsum ny nx f).
  { rewrite <- E00. unfold sqsum, A, ccf. change (pixel_sum ny nx) with (sum2 ny nx).
    rewrite <- (sum2_shift ny nx (fun i j => f ((i - 0) mod ny)%Z ((j - 0) mod nx)%Z * f i j) (- dy) (- dx)) by lia.
    apply sum2_ext. intros i j Hi Hj. rewrite Hg, !Z.sub_0_r, !Zmod_mod by auto. simpl. rewrite Rmult_1_r. reflexivity. }
  assert (R := xcorr_interior e agpy im1 im2 er1 er2 re zm nt np huge ny nx dy dx). cbv zeta in R. fold f g N in R.
  destruct Hr as [S1 [S2 _]]. rewrite R by (auto; replace (ccf ny nx f g dy dx) with (A 0%Z 0%Z) by (rewrite <- (Cg 0%Z 0%Z); f_equal; lia); lra).
  clear R. rewrite !Cg, E1, E2, E3, E4.
  set (fyy := A 0%Z 1%Z / N + A 0%Z 1%Z / N - 2 * (A 0%Z 0%Z / N)). set (fxx := A 1%Z 0%Z / N + A 1%Z 0%Z / N - 2 * (A 0%Z 0%Z / N)).
  set (fxy := 1 / 4 * (A 1%Z (-1)%Z / N + A 1%Z (-1)%Z / N - A 1%Z 1%Z / N - A 1%Z 1%Z / N)).
  replace (A 0%Z 1%Z / N - A 0%Z 1%Z / N) with 0 by ring. replace (A 1%Z 0%Z / N - A 1%Z 0%Z / N) with 0 by ring.
  replace (fyy * (0 / 2) - 0 / 2 * fxy) with 0 by field. replace (fxx * (0 / 2) - 0 / 2 * fxy) with 0 by field.
  assert (D : fxy ^ 2 - fxx * fyy <> 0).
  { assert (fxy ^ 2 - fxx * fyy = (((A 1%Z (-1)%Z - A 1%Z 1%Z) / 2) ^ 2 - 4 * ((A 0%Z 0%Z - A 0%Z 1%Z) * (A 0%Z 0%Z - A 1%Z 0%Z))) / N ^ 2).
    { unfold fxy, fxx, fyy. field. lra. }
    rewrite H. apply Rlt_not_eq. unfold Rdiv at 1. apply (Rmult_lt_reg_r (N ^ 2)); [apply pow_lt; auto|].
    rewrite Rmult_0_l, Rmult_assoc, Rinv_l, Rmult_1_r by (apply pow_nonzero; lra). lra. }
  rewrite xdiv_0 by exact D. cbn [xnegadd].
  replace (- (- IZR dx - half_if_odd nx + 0)) with (IZR dx + half_if_odd nx) by ring.
  replace (- (- IZR dy - half_if_odd ny + 0)) with (IZR dy + half_if_odd ny) by ring.
  destruct re; [|exists []; auto].
  assert (Zn : zucker N (sqsum ny nx f) (sqsum ny nx g) (A 0%Z 0%Z / N) fxx <> XNaN).
  { apply zucker_not_nan; try lra.
    - assert (0 < / N) by (apply Rinv_0_lt_compat; auto). unfold Rdiv. apply Rmult_integral_contrapositive_currified; lra.
    - replace fxx with (2 * (A 1%Z 0%Z - A 0%Z 0%Z) * / N) by (unfold fxx; field; lra). assert (0 < / N) by (apply Rinv_0_lt_compat; auto).
      apply Rmult_integral_contrapositive_currified; lra. }
  destruct (zucker N (sqsum ny nx f) (sqsum ny nx g) (A 0%Z 0%Z / N) fxx); [eexists; split; [reflexivity|reflexivity]|contradiction|eexists; split; [reflexivity|reflexivity]].
Qed.
Print Assumptions C45_roll_result_all_sizes.

Theorem C45_roll_recovered_even :
  forall e agpy im1 im2 er1 er2 zeromean nthreads use_np allow_huge ny nx dy dx,
  is_roll im1 im2 ny nx dy dx -> size_ok e allow_huge ny nx -> errim_ok er1 ny nx -> errim_ok er2 ny nx ->
  Z.even ny = true -> Z.even nx = true ->
  interior_shift ny dy -> interior_shift nx dx -> no_symmetry ny nx (prep zeromean im1 ny nx) ->
  cross_correlation_shifts e agpy im1 im2 er1 er2 None false false zeromean BWrap nthreads use_np allow_huge =
    Ok [XF (IZR dx); XF (IZR dy)].
Proof.
  intros e agpy im1 im2 er1 er2 zm nt np huge ny nx dy dx Hr Hh He1 He2 Ey Ex Iy Ix Hn.
  destruct (C45_roll_result_all_sizes e agpy im1 im2 er1 er2 false zm nt np huge ny nx dy dx Hr Hh He1 He2 Iy Ix Hn) as [rest [-> L]].
  destruct rest; [|discriminate]. unfold half_if_odd. rewrite <- !Z.negb_even, Ey, Ex. cbn [negb]. rewrite !Rplus_0_r. reflexivity.
Qed.
Print Assumptions C45_roll_recovered_even.

Theorem C46_odd_sizes_half_pixel_bias :
  forall e agpy im1 im2 er1 er2 zeromean nthreads use_np allow_huge ny nx dy dx,
  is_roll im1 im2 ny nx dy dx -> size_ok e allow_huge ny nx -> errim_ok er1 ny nx -> errim_ok er2 ny nx ->
  interior_shift ny dy -> interior_shift nx dx -> no_symmetry ny nx (prep zeromean im1 ny nx) ->
  exists x y,
    cross_correlation_shifts e agpy im1 im2 er1 er2 None false false zeromean BWrap nthreads use_np allow_huge = Ok [XF x; XF y] /\
    (x = IZR dx <-> Z.odd nx = false) /\ (y = IZR dy <-> Z.odd ny = false) /\
    (Z.odd nx = true -> x = IZR dx + 1 / 2) /\ (Z.odd ny = true -> y = IZR dy + 1 / 2).
Proof.
  intros e agpy im1 im2 er1 er2 zm nt np huge ny nx dy dx Hr Hh He1 He2 Iy Ix Hn.
  destruct (C45_roll_result_all_sizes e agpy im1 im2 er1 er2 false zm nt np huge ny nx dy dx Hr Hh He1 He2 Iy Ix Hn) as [rest [-> L]].
  destruct rest; [|discriminate]. exists (IZR dx + half_if_odd nx), (IZR dy + half_if_odd ny). split; [reflexivity|].
  unfold half_if_odd. destruct (Z.odd nx); destruct (Z.odd ny); repeat split; intros; try lra; try reflexivity; discriminate.
Qed.
Print Assumptions C46_odd_sizes_half_pixel_bias.
