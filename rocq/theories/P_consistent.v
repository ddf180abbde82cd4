(** C121: the offsets of chi2_shift and register_images converge to the true shift *)
From Coq Require Import ZArith Lia List Reals Lra Bool Classical.
From Coquelicot Require Import Complex.
From Verif Require Import Base NDim DFT Kernel Num Py Sum2 M_fast_ffts M_shift M_scale M_zoom M_upsample M_convolve M_correlate Arg M_chi2 M_xcorr M_register
  Spec L_shift L_scale L_upsample L_convolve Spec2 Spec3 Spec4 L_correlate L_chi2 L_register L_register2 L_register3
  L_chi2shift L_fshift L_xcorr P_xcorr P_xcorr2 P_xcorr3 P_chi2map P_chi2shift P_chi2shift2 P_register P_noise P_accuracy P_accuracy2 P_accuracy3.
Import ListNotations.
Open Scope R_scope.

Lemma jordan x : 0 <= x <= PI / 2 -> 2 * x <= PI * sin x.
Proof.
  intros [H0 H1]. assert (P := PI_RGT_0). destruct (Req_EM_T x 0) as [->|N0]; [rewrite sin_0; lra|]. destruct (Req_EM_T x (PI / 2)) as [->|N1]; [rewrite sin_PI2; lra|].
  destruct (MVT_cor2 sin cos 0 x ltac:(lra)) as [a [Ea Ia]]; [intros; apply derivable_pt_lim_sin|].
  destruct (MVT_cor2 sin cos x (PI / 2) ltac:(lra)) as [b [Eb Ib]]; [intros; apply derivable_pt_lim_sin|].
  rewrite sin_0 in Ea. rewrite sin_PI2 in Eb. assert (C : cos b < cos a) by (apply cos_decreasing_1; lra).
  assert (K : 0 <= (cos a - cos b) * (x * (PI / 2 - x))) by (apply Rmult_le_pos; [lra|apply Rmult_le_pos; lra]).
  replace ((cos a - cos b) * (x * (PI / 2 - x))) with (cos a * (x - 0) * (PI / 2 - x) - x * (cos b * (PI / 2 - x))) in K by ring. rewrite <- Ea, <- Eb in K. lra.
Qed.

(** distance of z to the nearest integer, from the sine *)
Lemma near_integer z : exists m : Z, 2 * Rabs (z - IZR m) <= Rabs (sin (PI * z)).
Proof.
  assert (P := PI_RGT_0). set (m := (up (z - 1 / 2))%Z). exists m. destruct (archimed (z - 1 / 2)) as [A1 A2]. fold m in A1, A2.
  set (w := z - IZR m). assert (W : - (1 / 2) <= w <= 1 / 2) by (unfold w; lra).
  assert (E : Rabs (sin (PI * z)) = Rabs (sin (PI * w))).
  { replace (PI * z) with (PI * w + IZR m * PI) by (unfold w; ring).
    assert (S0 : sin (IZR m * PI) = 0) by (apply sin_eq_0_1; exists m; reflexivity). rewrite sin_plus, S0, Rmult_0_r, Rplus_0_r, Rabs_mult.
    assert (C1 : Rabs (cos (IZR m * PI)) = 1).
    { assert (Q := sin2_cos2 (IZR m * PI)). rewrite S0 in Q. unfold Rsqr in Q. assert (C2 : cos (IZR m * PI) * cos (IZR m * PI) = 1) by lra.
      destruct (Rcase_abs (cos (IZR m * PI))) as [N|N]; [rewrite Rabs_left by auto|rewrite Rabs_right by auto]; nra. }
    rewrite C1. ring. }
  rewrite E. destruct (Rle_dec 0 w) as [N|N].
  - rewrite (Rabs_right w) by lra. assert (J := jordan (PI * w)). assert (0 <= PI * w) by (apply Rmult_le_pos; lra).
    assert (PI * w <= PI / 2). { assert (K := Rmult_le_compat_l PI _ _ ltac:(lra) (proj2 W)). lra. }
    specialize (J ltac:(lra)). refine (Rle_trans _ _ _ _ (Rle_abs _)). apply (Rmult_le_reg_l PI); [lra|]. lra.
  - rewrite (Rabs_left w) by lra. assert (J := jordan (PI * - w)). assert (0 <= PI * - w) by (apply Rmult_le_pos; lra).
    assert (PI * - w <= PI / 2). { assert (K := Rmult_le_compat_l PI (- w) (1 / 2) ltac:(lra) ltac:(lra)). lra. }
    specialize (J ltac:(lra)). replace (PI * w) with (- (PI * - w)) by ring. rewrite sin_neg, Rabs_Ropp. refine (Rle_trans _ _ _ _ (Rle_abs _)). apply (Rmult_le_reg_l PI); [lra|]. lra.
Qed.

(** distance of two offsets along an axis of n pixels, up to whole periods, is at most d *)
Definition off_by (n : Z) (d x t : R) : Prop := exists k : Z, Rabs (x - t - IZR k * IZR n) <= d.
(** amplitudes of the image at its lowest frequencies: one wave along y, one wave along x *)
Definition wave_y (ny nx : Z) (f : Z -> Z -> R) : R := Cmod (sumC ny (fun i => sumC nx (fun j => Cmult (RtoC (f i j)) (cis (- (2 * PI * (IZR i / IZR ny))))))).
Definition wave_x (ny nx : Z) (f : Z -> Z -> R) : R := Cmod (sumC ny (fun i => sumC nx (fun j => Cmult (RtoC (f i j)) (cis (- (2 * PI * (IZR j / IZR nx))))))).

Lemma off_by_sine n y t F B : (0 < n)%Z -> 0 < F -> 2 * Rabs (sin (PI * (y - t) / IZR n)) * F <= B -> off_by n (IZR n * B / (4 * F)) y t.
Proof.
  intros Hn HF H. assert (N : 0 < IZR n) by (apply IZR_lt; auto). destruct (near_integer ((y - t) / IZR n)) as [m Hm]. exists m.
  replace (PI * ((y - t) / IZR n)) with (PI * (y - t) / IZR n) in Hm by (unfold Rdiv; ring).
  replace (y - t - IZR m * IZR n) with (IZR n * ((y - t) / IZR n - IZR m)) by (field; lra). rewrite Rabs_mult, (Rabs_right (IZR n)) by lra.
  unfold Rdiv at 2. rewrite Rmult_assoc. apply Rmult_le_compat_l; [lra|]. apply (Rmult_le_reg_r (4 * F)); [lra|]. rewrite Rmult_assoc, Rinv_l, Rmult_1_r by lra.
  refine (Rle_trans _ _ _ _ H). assert (K := Rmult_le_compat_r F _ _ ltac:(lra) Hm). lra.
Qed.

Lemma waves ny nx f : (3 <= ny)%Z -> (3 <= nx)%Z ->
  Cmod (dft [ny; nx] (fun p => RtoC (img2 f p)) [1%Z; 0%Z]) = wave_y ny nx f /\ Cmod (dft [ny; nx] (fun p => RtoC (img2 f p)) [0%Z; 1%Z]) = wave_x ny nx f /\
  Cmod (dft [ny; nx] (fun p => RtoC (img2 f p)) [0%Z; 0%Z]) = Rabs (pixel_sum ny nx f).
Proof.
  intros Hy Hx. split; [|split].
  - unfold wave_y. f_equal. unfold dft. rewrite sumNC_cons. apply sumC_ext. intros i HI. rewrite sumNC_cons. apply sumC_ext. intros j HJ. rewrite sumNC_nil. cbn [img2]. f_equal. f_equal. cbn [phZ]. unfold Rdiv. ring.
  - unfold wave_x. f_equal. unfold dft. rewrite sumNC_cons. apply sumC_ext. intros i HI. rewrite sumNC_cons. apply sumC_ext. intros j HJ. rewrite sumNC_nil. cbn [img2]. f_equal. f_equal. cbn [phZ]. unfold Rdiv. ring.
  - rewrite <- Cmod_R. f_equal. unfold pixel_sum. rewrite <- sumC_RtoC. unfold dft. rewrite sumNC_cons. apply sumC_ext. intros i HI. rewrite <- sumC_RtoC, sumNC_cons. apply sumC_ext. intros j HJ. rewrite sumNC_nil. cbn [img2 phZ].
    replace (- (2 * PI * (IZR 0 * IZR i / IZR ny + (IZR 0 * IZR j / IZR nx + 0)))) with 0 by (unfold Rdiv; ring). rewrite cis_0. ring.
Qed.
Lemma freq0 n : (3 <= n)%Z -> fftfreq n 0 = 0.
Proof. intros Hn. unfold fftfreq, fidx. destruct (Z.leb_spec 0 ((n - 1) / 2)); [unfold Rdiv; ring|exfalso; Z.to_euclidean_division_equations; lia]. Qed.
Lemma freq1 n : (3 <= n)%Z -> fftfreq n 1 = 1 / IZR n.
Proof. intros Hn. unfold fftfreq, fidx. destruct (Z.leb_spec 1 ((n - 1) / 2)); [reflexivity|exfalso; Z.to_euclidean_division_equations; lia]. Qed.

(** *** explicit bounds *)
Theorem C121_chi2_shift :
  forall e im1 im2 err s us nthreads use_np zeromean nfitted ret_err ret_arr mas mns allow_huge ny nx t u s1 s2 ty tx (p0 q0 : Z),
  shape im1 = [ny; nx] -> shape im2 = [ny; nx] -> (3 <= ny)%Z -> (3 <= nx)%Z -> size_ok e allow_huge ny nx ->
  (err = ErrNone /\ s = 1 \/ err = ErrScalar s /\ s <> 0) -> explicit_grid us ny nx u s1 s2 -> one_sigma e t ->
  let f1 := prep zeromean im1 ny nx in let f2 := prep zeromean im2 ny nx in
  (forall p q : Z, ~ (reaches ny p (IZR s1 / (2 * u)) ty /\ reaches nx q (IZR s2 / (2 * u)) tx) ->
     self_distance ny nx f1 (RtoC 1) (IZR p0) (IZR q0) ty tx + 2 * mismatch ny nx f1 f2 ty tx < self_distance ny nx f1 (RtoC 1) (IZR p) (IZR q) ty tx) ->
  0 < wave_y ny nx f1 -> 0 < wave_x ny nx f1 ->
  let B := sqrt (IZR (ny * nx)) * (2 * mismatch ny nx f1 f2 ty tx + PI / u * norm2 ny nx f1) in
  exists x y rest,
    chi2_shift e im1 im2 err us BWrap nthreads use_np zeromean nfitted false ret_err ret_arr mas mns allow_huge = Ok (RNum x :: RNum y :: rest) /\
    off_by ny (IZR ny * B / (4 * wave_y ny nx f1)) y ty /\ off_by nx (IZR nx * B / (4 * wave_x ny nx f1)) x tx.
Proof.
  intros e im1 im2 err s us nt np zm nf re rc mas mns huge ny nx t u s1 s2 ty tx p0 q0 H1 H2 Hy Hx Hh Hs Hg Ht f1 f2 HG Fy Fx B.
  destruct (C119_chi2_shift e im1 im2 err s us nt np zm nf re rc mas mns huge ny nx t u s1 s2 ty tx p0 q0 H1 H2 ltac:(lia) ltac:(lia) Hh Hs Hg Ht HG) as [x [y [rest [E [_ K]]]]].
  exists x, y, rest. split; [exact E|]. fold f1 f2 B in K. destruct (waves ny nx f1 Hy Hx) as [W1 [W2 _]]. split.
  - apply off_by_sine; [lia|auto|]. specialize (K 1%Z 0%Z ltac:(lia) ltac:(lia)). rewrite W1, freq0, freq1 in K by auto.
    replace (PI * (1 / IZR ny * (y - ty) + 0 * (x - tx))) with (PI * (y - ty) / IZR ny) in K by (unfold Rdiv; ring). exact K.
  - apply off_by_sine; [lia|auto|]. specialize (K 0%Z 1%Z ltac:(lia) ltac:(lia)). rewrite W2, freq0, freq1 in K by auto.
    replace (PI * (0 * (y - ty) + 1 / IZR nx * (x - tx))) with (PI * (x - tx) / IZR nx) in K by (unfold Rdiv; ring). exact K.
Qed.
Print Assumptions C121_chi2_shift.

Theorem C121_register_images :
  forall has_fftw im1 im2 usfac ret_err zeromean nthreads use_np ny nx ty tx (p0 q0 : Z),
  shape im1 = [ny; nx] -> shape im2 = [ny; nx] -> (3 <= ny)%Z -> (3 <= nx)%Z -> 2 < usfac ->
  let f1 := prep zeromean im1 ny nx in let f2 := prep zeromean im2 ny nx in
  (forall (p q : Z) c, Cmod c = 1 -> ~ (near_coarse ny usfac (IZR p / 2) ty /\ near_coarse nx usfac (IZR q / 2) tx) ->
     self_distance ny nx f1 (RtoC 1) (IZR p0 / 2) (IZR q0 / 2) ty tx + 2 * mismatch ny nx f1 f2 ty tx < self_distance ny nx f1 c (IZR p / 2) (IZR q / 2) ty tx) ->
  let Fy := wave_y ny nx f1 in let Fx := wave_x ny nx f1 in let flux := Rabs (pixel_sum ny nx f1) in
  0 < Fy -> 0 < Fx -> 0 < flux ->
  let B := sqrt (IZR (ny * nx)) * (2 * mismatch ny nx f1 f2 ty tx + PI / usfac * norm2 ny nx f1) in
  exists x y,
    register_images has_fftw im1 im2 usfac false ret_err zeromean None nthreads use_np = Ok (nums [x; y] ++ err_out ret_err usfac) /\
    off_by ny (IZR ny * (B * (1 / Fy + 1 / flux)) / 4) y ty /\ off_by nx (IZR nx * (B * (1 / Fx + 1 / flux)) / 4) x tx.
Proof.
  intros hf im1 im2 u re zm nt np ny nx ty tx p0 q0 H1 H2 Hy Hx Hu f1 f2 HG Fy Fx flux PFy PFx PF B.
  destruct (C119_register_images hf im1 im2 u re zm nt np ny nx ty tx p0 q0 H1 H2 ltac:(lia) ltac:(lia) Hu HG) as [x [y [c [E [_ [_ K]]]]]].
  exists x, y. split; [exact E|]. cbv beta zeta in K. fold f1 f2 B in K. destruct (waves ny nx f1 Hy Hx) as [W1 [W2 W0]]. fold Fy in W1. fold Fx in W2. fold flux in W0. split.
  - specialize (K 1%Z 0%Z 0%Z 0%Z ltac:(lia) ltac:(lia) ltac:(lia) ltac:(lia)). rewrite W1, W0, !freq0, freq1 in K by auto.
    replace (PI * ((1 / IZR ny - 0) * (y - ty) + (0 - 0) * (x - tx))) with (PI * (y - ty) / IZR ny) in K by (unfold Rdiv; ring).
    replace (IZR ny * (B * (1 / Fy + 1 / flux)) / 4) with (IZR ny * (B * (Fy + flux)) / (4 * (Fy * flux))) by (field; lra). apply off_by_sine; [lia|apply Rmult_lt_0_compat; auto|exact K].
  - specialize (K 0%Z 1%Z 0%Z 0%Z ltac:(lia) ltac:(lia) ltac:(lia) ltac:(lia)). rewrite W2, W0, !freq0, freq1 in K by auto.
    replace (PI * ((0 - 0) * (y - ty) + (1 / IZR nx - 0) * (x - tx))) with (PI * (x - tx) / IZR nx) in K by (unfold Rdiv; ring).
    replace (IZR nx * (B * (1 / Fx + 1 / flux)) / 4) with (IZR nx * (B * (Fx + flux)) / (4 * (Fx * flux))) by (field; lra). apply off_by_sine; [lia|apply Rmult_lt_0_compat; auto|exact K].
Qed.
Print Assumptions C121_register_images.

(** *** convergence *)
Lemma finite_gap (n : Z) (P : Z -> Prop) (h : Z -> R) :
  (forall p, (0 <= p < n)%Z -> P p -> 0 < h p) -> exists g, 0 < g /\ forall p, (0 <= p < n)%Z -> P p -> g <= h p.
Proof.
  destruct (Z_le_gt_dec n 0) as [L|L]; [intros _; exists 1; split; [lra|intros; lia]|].
  pattern n. apply natlike_rec2; [|clear L|lia].
  - intros _. exists 1. split; [lra|intros; lia].
  - intros z Hz IH H. destruct IH as [g [G0 G]]; [intros p Hp; apply H; lia|].
    destruct (classic (P z)) as [Q|Q].
    + assert (Hz' := H z ltac:(lia) Q). exists (Rmin g (h z)). split; [apply Rmin_glb_lt; auto|]. intros p Hp HP.
      destruct (Z.eq_dec p z) as [->|N]; [apply Rmin_r|]. refine (Rle_trans _ _ _ (Rmin_l _ _) _). apply G; [lia|auto].
    + exists g. split; [auto|]. intros p Hp HP. destruct (Z.eq_dec p z) as [->|N]; [contradiction|]. apply G; [lia|auto].
Qed.
Lemma finite_gap2 (n m : Z) (P : Z -> Z -> Prop) (h : Z -> Z -> R) :
  (forall p q, (0 <= p < n)%Z -> (0 <= q < m)%Z -> P p q -> 0 < h p q) -> exists g, 0 < g /\ forall p q, (0 <= p < n)%Z -> (0 <= q < m)%Z -> P p q -> g <= h p q.
Proof.
  intros H.
  destruct (Z_le_gt_dec n 0) as [L|L]; [exists 1; split; [lra|intros; lia]|].
  revert H. pattern n. apply natlike_rec2; [|clear L|lia].
  - intros _. exists 1. split; [lra|intros; lia].
  - intros z Hz IH H. destruct IH as [g [G0 G]]; [intros p q Hp; apply H; lia|].
    destruct (finite_gap m (P z) (h z)) as [g' [G0' G']]; [intros q Hq; apply H; lia|].
    exists (Rmin g g'). split; [apply Rmin_glb_lt; auto|]. intros p q Hp Hq HP.
    destruct (Z.eq_dec p z) as [->|N]; [refine (Rle_trans _ _ _ (Rmin_r _ _) _); auto|]. refine (Rle_trans _ _ _ (Rmin_l _ _) _). apply G; auto; lia.
Qed.

Lemma reaches_mod n p w t : (0 < n)%Z -> reaches n (p mod n) w t -> reaches n p w t.
Proof.
  intros Hn [k H]. exists (k + p / n)%Z. rewrite plus_IZR. replace (t + (IZR k + IZR (p / n)) * IZR n - (IZR p - (if Z.even n then 1 / 2 else 0))) with
    (t + IZR k * IZR n - (IZR (p mod n) - (if Z.even n then 1 / 2 else 0))); [exact H|].
  assert (E : IZR p = IZR n * IZR (p / n) + IZR (p mod n)) by (rewrite <- mult_IZR, <- plus_IZR, <- Z.div_mod by lia; reflexivity). rewrite E. ring.
Qed.
Lemma self_distance_mod ny nx f c p q ty tx : (0 < ny)%Z -> (0 < nx)%Z ->
  self_distance ny nx f c (IZR (p mod ny)) (IZR (q mod nx)) ty tx = self_distance ny nx f c (IZR p) (IZR q) ty tx.
Proof.
  intros Hy Hx. unfold self_distance. f_equal. apply sum2_ext. intros i j Hi Hj. rewrite !cshift_int by auto. rewrite !Zminus_mod_idemp_r. reflexivity.
Qed.

Theorem C121_convergence :
  forall im1 zeromean ny nx ty tx (p0 q0 : Z),
  shape im1 = [ny; nx] -> (3 <= ny)%Z -> (3 <= nx)%Z ->
  let f1 := prep zeromean im1 ny nx in
  (* rolls more than a pixel from the true shift resemble the shifted image less than some roll *)
  (forall p q : Z, ~ (reaches ny p 1 ty /\ reaches nx q 1 tx) ->
     self_distance ny nx f1 (RtoC 1) (IZR p0) (IZR q0) ty tx < self_distance ny nx f1 (RtoC 1) (IZR p) (IZR q) ty tx) ->
  0 < wave_y ny nx f1 -> 0 < wave_x ny nx f1 ->
  forall delta, 0 < delta ->
  exists noise factor, 0 < noise /\
  forall e im2 err s k nthreads use_np nfitted ret_err ret_arr mas mns allow_huge t,
  shape im2 = [ny; nx] -> size_ok e allow_huge ny nx -> (err = ErrNone /\ s = 1 \/ err = ErrScalar s /\ s <> 0) -> one_sigma e t ->
  mismatch ny nx f1 (prep zeromean im2 ny nx) ty tx <= noise -> (factor <= k)%Z ->
  exists x y rest,
    chi2_shift e im1 im2 err (UInt k) BWrap nthreads use_np zeromean nfitted false ret_err ret_arr mas mns allow_huge = Ok (RNum x :: RNum y :: rest) /\
    off_by ny delta y ty /\ off_by nx delta x tx.
Proof.
  intros im1 zm ny nx ty tx p0 q0 H1 Hy Hx f1 HG PFy PFx delta Hd.
  set (d0 := self_distance ny nx f1 (RtoC 1) (IZR p0) (IZR q0) ty tx) in *.
  destruct (finite_gap2 ny nx (fun p q => ~ (reaches ny p 1 ty /\ reaches nx q 1 tx)) (fun p q => self_distance ny nx f1 (RtoC 1) (IZR p) (IZR q) ty tx - d0)) as [g [G0 G]].
  { intros p q _ _ Q. specialize (HG p q Q). lra. }
  assert (GG : forall p q, ~ (reaches ny p 1 ty /\ reaches nx q 1 tx) -> d0 + g <= self_distance ny nx f1 (RtoC 1) (IZR p) (IZR q) ty tx).
  { intros p q Q. rewrite <- self_distance_mod by lia. assert (K := G (p mod ny)%Z (q mod nx)%Z ltac:(apply Z.mod_pos_bound; lia) ltac:(apply Z.mod_pos_bound; lia)). cbv beta in K.
    assert (Q' : ~ (reaches ny (p mod ny) 1 ty /\ reaches nx (q mod nx) 1 tx)) by (intros [A B]; apply Q; split; apply reaches_mod; auto; lia). specialize (K Q'). lra. }
  assert (NP := size_pos ny nx ltac:(lia) ltac:(lia)). set (S := sqrt (IZR (ny * nx))). assert (S0 : 0 < S) by (apply sqrt_lt_R0; auto).
  set (Fy := wave_y ny nx f1) in *. set (Fx := wave_x ny nx f1) in *. assert (Ny : 0 < IZR ny) by (apply IZR_lt; lia). assert (Nx : 0 < IZR nx) by (apply IZR_lt; lia).
  (* it is enough that B <= b *)
  set (b := Rmin (delta * (4 * Fy) / IZR ny) (delta * (4 * Fx) / IZR nx)).
  assert (b0 : 0 < b) by (apply Rmin_glb_lt; repeat apply Rmult_lt_0_compat; try lra; apply Rinv_0_lt_compat; auto).
  set (n1 := norm2 ny nx f1). assert (N1 : 0 <= n1) by apply sqrt_pos. assert (P := PI_RGT_0).
  set (r := b / S). assert (r0 : 0 < r) by (apply Rmult_lt_0_compat; [auto|apply Rinv_0_lt_compat; auto]).
  set (c := PI * n1 / (r / 2)).
  exists (Rmin (g / 4) (r / 4)), (Z.max ny (up c)). split; [apply Rmin_glb_lt; lra|].
  intros e im2 err s k nt np nf re rc mas mns huge t H2 Hh Hs Ht Hm Hk.
  assert (M1 := Rle_trans _ _ _ Hm (Rmin_l _ _)). assert (M2 := Rle_trans _ _ _ Hm (Rmin_r _ _)). set (mm := mismatch ny nx f1 (prep zm im2 ny nx) ty tx) in *.
  assert (Kn : (ny <= k)%Z) by lia. assert (Kp : 0 < IZR k) by (apply IZR_lt; lia).
  assert (Kc : c < IZR k). { apply Rlt_le_trans with (IZR (up c)); [apply archimed|apply IZR_le; lia]. }
  destruct (C121_chi2_shift e im1 im2 err s (UInt k) nt np zm nf re rc mas mns huge ny nx t (IZR k) (2 * k) (2 * k) ty tx p0 q0) as [x [y [rest [E [Oy Ox]]]]]; auto.
  - cbn. split; [reflexivity|]. split; [lia|]. replace (k <? ny)%Z with false by (symmetry; apply Z.ltb_ge; lia). split; lia.
  - fold f1. fold d0. fold mm. rewrite mult_IZR. replace (IZR 2 * IZR k / (2 * IZR k)) with 1 by (change (IZR 2) with 2; field; lra). intros p q Q. specialize (GG p q Q). lra.
  - fold f1 in Oy, Ox. fold mm n1 S Fy Fx in Oy, Ox. exists x, y, rest. split; [exact E|].
    set (B := S * (2 * mm + PI / IZR k * n1)) in *.
    assert (BB : B <= b).
    { unfold B. replace b with (S * r) by (unfold r; field; lra). apply Rmult_le_compat_l; [lra|].
      assert (PI / IZR k * n1 <= r / 2); [|lra]. apply (Rmult_le_reg_r (IZR k)); [auto|]. replace (PI / IZR k * n1 * IZR k) with (PI * n1) by (field; lra).
      replace (PI * n1) with (r / 2 * c) by (unfold c; field; lra). apply Rmult_le_compat_l; lra. }
    assert (W : forall n F d, 0 < n -> 0 < F -> d <= delta * (4 * F) / n -> n * d / (4 * F) <= delta).
    { intros n F d Hn HF Q. apply (Rmult_le_reg_r (4 * F / n)); [apply Rmult_lt_0_compat; [lra|apply Rinv_0_lt_compat; auto]|]. replace (n * d / (4 * F) * (4 * F / n)) with d by (field; lra).
      replace (delta * (4 * F / n)) with (delta * (4 * F) / n) by (field; lra). exact Q. }
    split.
    + destruct Oy as [m Q]. exists m. refine (Rle_trans _ _ _ Q _). apply W; auto. refine (Rle_trans _ _ _ BB (Rmin_l _ _)).
    + destruct Ox as [m Q]. exists m. refine (Rle_trans _ _ _ Q _). apply W; auto. refine (Rle_trans _ _ _ BB (Rmin_r _ _)).
Qed.
Print Assumptions C121_convergence.

Lemma dot_wave ny nx a b (th : Z -> Z -> R) : (0 <= a < ny)%Z -> (0 <= b < nx)%Z ->
  Cmod (sumC ny (fun i => sumC nx (fun j => Cmult (RtoC (prep false (dot ny nx a b) ny nx i j)) (cis (th i j))))) = 1.
Proof.
  intros Ha Hb.
  assert (E : forall i j, (0 <= i < ny)%Z -> (0 <= j < nx)%Z -> prep false (dot ny nx a b) ny nx i j = if ((i =? a) && (j =? b))%Z then 1 else 0) by reflexivity.
  rewrite (sumC_single ny _ a) by (auto; intros i Hi Ni; apply sumC_const0; intros j Hj; rewrite E by auto; apply Z.eqb_neq in Ni; rewrite Ni; cbn [andb]; ring).
  rewrite (sumC_single nx _ b) by (auto; intros j Hj Nj; rewrite E by auto; apply Z.eqb_neq in Nj; rewrite Nj, andb_false_r; ring).
  rewrite E by auto. rewrite !Z.eqb_refl. cbn [andb]. rewrite Cmult_1_l. apply Cmod_cis.
Qed.
(** a bright pixel, moved by (2, -2) plus noise *)
Example C121_nonvacuous : let f1 := prep false (dot 5 5 1 1) 5 5 in
  (forall p q : Z, ~ (reaches 5 p 1 2 /\ reaches 5 q 1 (-2)) ->
     self_distance 5 5 f1 (RtoC 1) (IZR 2) (IZR (-2)) 2 (-2) < self_distance 5 5 f1 (RtoC 1) (IZR p) (IZR q) 2 (-2)) /\
  wave_y 5 5 f1 = 1 /\ wave_x 5 5 f1 = 1 /\ Rabs (pixel_sum 5 5 f1) = 1.
Proof.
  cbv zeta. set (f := prep false (dot 5 5 1 1) 5 5).
  assert (S0 : self_distance 5 5 f (RtoC 1) 2 (-2) 2 (-2) = 0).
  { unfold self_distance. match goal with |- sqrt ?X = 0 => replace X with 0; [apply sqrt_0|] end. symmetry. apply sum2_const0. intros i j _ _. cbv beta. rewrite Cmult_1_l. unfold Cminus. rewrite Cplus_opp_r, Cmod_0. ring. }
  split; [|split; [|split]].
  - intros p q N. rewrite S0. apply (dot_far 5 5 1 1 2 (-2)); try lia; [apply Cmod_1|].
    intros [W W']. apply N. destruct W as [W|[k W]]; [lia|]. destruct W' as [W'|[l W']]; [lia|]. split; [exists k|exists l]; cbn [Z.even].
    + replace (2 + IZR k * 5 - (IZR p - 0)) with 0 by lra. rewrite Rabs_R0. lra.
    + replace (-2 + IZR l * 5 - (IZR q - 0)) with 0 by lra. rewrite Rabs_R0. lra.
  - apply (dot_wave 5 5 1 1 (fun i _ => - (2 * PI * (IZR i / IZR 5)))); lia.
  - apply (dot_wave 5 5 1 1 (fun _ j => - (2 * PI * (IZR j / IZR 5)))); lia.
  - rewrite <- (proj2 (proj2 (waves 5 5 f ltac:(lia) ltac:(lia)))). unfold dft. rewrite <- (dot_wave 5 5 1 1 (fun i j => - (2 * PI * phZ [5; 5]%Z [0; 0]%Z [i; j])) ltac:(lia) ltac:(lia)). f_equal.
Qed.
