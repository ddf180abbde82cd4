(** Properties C32-C33: correlate2d *)
From Coq Require Import ZArith Lia List Reals Lra Bool.
From Coquelicot Require Import Complex.
From Verif Require Import Base NDim DFT Kernel Py M_fast_ffts M_shift M_convolve M_correlate Spec L_shift L_convolve Sum2 Spec2 L_correlate.
Import ListNotations.
Open Scope R_scope.

(** *** C32 *)
Theorem C32_wrap_is_circular_correlation :
  forall env gb (im1 im2 : arr num) nthreads use_np allow_huge ny nx,
  shape im1 = [ny; nx] -> shape im2 = [ny; nx] -> (0 < ny)%Z -> (0 < nx)%Z ->
  allow_huge = true \/ (16 * (ny * nx) <= gb)%Z ->
  exists cc, correlate2d env gb im1 im2 BWrap nthreads use_np allow_huge = Ok cc /\ shape cc = [ny; nx] /\
    forall k l, (0 <= k < ny)%Z -> (0 <= l < nx)%Z ->
      g2 cc k l = pixel_sum ny nx (fun i j =>
        px im1 i j * pxw im2 ny nx (i + (ny - 1) / 2 - k) (j + (nx - 1) / 2 - l)).
Proof.
  intros env gb im1 im2 nt np huge ny nx H1 H2 Hy Hx Hh.
  destruct (correlate2d_wrap env gb im1 im2 nt np huge ny nx H1 H2 Hy Hx Hh) as [cc [E1 [E2 E3]]].
  exists cc. split; [exact E1|]. split; [exact E2|]. intros k l Hk Hl. rewrite E3 by auto.
  change (pixel_sum ny nx) with (sum2 ny nx).
  rewrite <- (sum2_shift ny nx _ ((ny - 1) / 2 - k) ((nx - 1) / 2 - l)) by auto. apply sum2_ext. intros i j Hi Hj.
  unfold pxw, px, g2. rewrite Rmult_comm. f_equal.
  - unfold nan0. do 2 f_equal.
    + replace ((i + ((ny - 1) / 2 - k)) mod ny - (ny - 1) / 2 + k)%Z with ((i + ((ny - 1) / 2 - k)) mod ny + (k - (ny - 1) / 2))%Z by lia.
      rewrite Zplus_mod_idemp_l. replace (i + ((ny - 1) / 2 - k) + (k - (ny - 1) / 2))%Z with i by lia. rewrite Z.mod_small by lia.
      f_equal.
      replace ((j + ((nx - 1) / 2 - l)) mod nx - (nx - 1) / 2 + l)%Z with ((j + ((nx - 1) / 2 - l)) mod nx + (l - (nx - 1) / 2))%Z by lia.
      rewrite Zplus_mod_idemp_l. replace (j + ((nx - 1) / 2 - l) + (l - (nx - 1) / 2))%Z with j by lia. rewrite Z.mod_small by lia. reflexivity.
  - unfold nan0. replace (i + (ny - 1) / 2 - k)%Z with (i + ((ny - 1) / 2 - k))%Z by lia.
    replace (j + (nx - 1) / 2 - l)%Z with (j + ((nx - 1) / 2 - l))%Z by lia. reflexivity.
Qed.
Print Assumptions C32_wrap_is_circular_correlation.

(** the zero-lag pixel, for odd and even sizes alike *)
Theorem C32_zero_lag_pixel :
  forall env gb (im1 im2 : arr num) nthreads use_np allow_huge ny nx,
  shape im1 = [ny; nx] -> shape im2 = [ny; nx] -> (0 < ny)%Z -> (0 < nx)%Z ->
  allow_huge = true \/ (16 * (ny * nx) <= gb)%Z ->
  exists cc, correlate2d env gb im1 im2 BWrap nthreads use_np allow_huge = Ok cc /\
    g2 cc ((ny - 1) / 2) ((nx - 1) / 2) = pixel_sum ny nx (fun i j => px im1 i j * px im2 i j).
Proof.
  intros env gb im1 im2 nt np huge ny nx H1 H2 Hy Hx Hh.
  destruct (C32_wrap_is_circular_correlation env gb im1 im2 nt np huge ny nx H1 H2 Hy Hx Hh) as [cc [E1 [E2 E3]]].
  exists cc. split; [exact E1|]. rewrite E3.
  - apply sum2_ext. intros i j Hi Hj. unfold pxw. replace (i + (ny - 1) / 2 - (ny - 1) / 2)%Z with i by lia.
    replace (j + (nx - 1) / 2 - (nx - 1) / 2)%Z with j by lia. rewrite !Z.mod_small by lia. reflexivity.
  - Z.to_euclidean_division_equations; lia.
  - Z.to_euclidean_division_equations; lia.
Qed.
Print Assumptions C32_zero_lag_pixel.

(** 'fill': linear correlation, nothing wraps around, images of different sizes allowed; output has im1's shape *)
Theorem C32_fill_never_wraps :
  forall env gb (im1 im2 : arr num) b nthreads use_np ny nx my mx,
  shape im1 = [ny; nx] -> shape im2 = [my; mx] -> (0 < ny)%Z -> (0 < nx)%Z -> (0 < my)%Z -> (0 < mx)%Z ->
  b = BFill \/ b = BNone ->
  exists cc, correlate2d env gb im1 im2 b nthreads use_np true = Ok cc /\ shape cc = shape im1 /\
    forall k l, (0 <= k < ny)%Z -> (0 <= l < nx)%Z ->
      g2 cc k l = pixel_sum my mx (fun i j =>
        px im2 i j * px0 im1 ny nx (i - (my - 1) / 2 + k) (j - (mx - 1) / 2 + l)).
Proof.
  intros env gb im1 im2 b nt np ny nx my mx H1 H2 Hy Hx Hmy Hmx Hb.
  destruct (correlate2d_ok env gb im1 im2 b nt np true ny nx my mx H1 H2 Hy Hx Hmy Hmx) as [cc [E1 [E2 E3]]]; [tauto|left; reflexivity|].
  exists cc. split; [exact E1|]. split; [congruence|]. intros k l Hk Hl. rewrite E3 by auto.
  apply sum2_ext. intros i j Hi Hj. unfold px at 1. fold (g2 im2 i j). f_equal.
  assert (E : forall y x, ext_fill ny nx (fun y x => nan0 (g2 im1 y x)) y x = px0 im1 ny nx y x).
  { intros y x. unfold ext_fill, px0. destruct (Z.leb_spec 0 y), (Z_le_dec 0 y); try lia; simpl; auto.
    destruct (Z.ltb_spec y ny), (Z_lt_dec y ny); try lia; simpl; auto.
    destruct (Z.leb_spec 0 x), (Z_le_dec 0 x); try lia; simpl; auto.
    destruct (Z.ltb_spec x nx), (Z_lt_dec x nx); try lia; simpl; auto. }
  destruct Hb as [-> | ->]; rewrite E; f_equal; lia.
Qed.
Print Assumptions C32_fill_never_wraps.

(** The docstring's "cropped to the largest of each dimension of the input images" is false: the output always has
    the first image's shape. *)
Theorem C32_largest_dimension_refuted :
  exists im1 im2 : arr num, forall env gb nthreads use_np, exists cc,
    correlate2d env gb im1 im2 BFill nthreads use_np true = Ok cc /\
    shape cc <> zipw Z.max (shape im1) (shape im2).
Proof.
  exists (mk2 2 2 (fun _ _ => Fin 1)), (mk2 3 2 (fun _ _ => Fin 1)). intros env gb nt np.
  destruct (C32_fill_never_wraps env gb (mk2 2 2 (fun _ _ => Fin 1)) (mk2 3 2 (fun _ _ => Fin 1)) BFill nt np 2 2 3 2) as [cc [E1 [E2 _]]]; try lia; auto.
  exists cc. split; [exact E1|]. rewrite E2. discriminate.
Qed.
Print Assumptions C32_largest_dimension_refuted.

Theorem C32_size_limit :
  forall env gb (im1 im2 : arr num) nthreads use_np ny nx,
  shape im1 = [ny; nx] -> shape im2 = [ny; nx] -> (0 < ny)%Z -> (0 < nx)%Z ->
  (correlate2d env gb im1 im2 BWrap nthreads use_np false = Raise ValueError <-> (gb < 16 * (ny * nx))%Z).
Proof.
  intros env gb im1 im2 nt np ny nx H1 H2 Hy Hx. split.
  - intros E. destruct (Z.ltb_spec gb (16 * (ny * nx))); auto.
    destruct (correlate2d_wrap env gb im1 im2 nt np false ny nx H1 H2 Hy Hx) as [cc [E1 _]]; [right; lia|congruence].
  - intros H. apply (correlate2d_huge env gb im1 im2 nt np ny nx); auto.
Qed.
Print Assumptions C32_size_limit.

Example C32_nonvacuous : let im1 := mk2 2 3 (fun y x => if (x =? 2)%Z then NaN else Fin (IZR (y + 2 * x))) in
  let im2 := mk2 2 3 (fun y x => Fin (IZR (x * x))) in
  shape im1 = [2; 3]%Z /\ shape im2 = [2; 3]%Z /\
  pixel_sum 2 3 (fun i j => px im1 i j * pxw im2 2 3 (i + 0 - 1) (j + 1 - 2)) = 4.
Proof. cbv zeta. repeat split. cbv - [Rplus Rmult IZR]. lra. Qed.

(** *** C33 *)
Lemma cross_le_energy ny nx (f g : Z -> Z -> R) :
  sum2 ny nx (fun i j => f i j * g i j) = (sum2 ny nx (fun i j => f i j * f i j) + sum2 ny nx (fun i j => g i j * g i j)
     - sum2 ny nx (fun i j => (f i j - g i j) * (f i j - g i j))) / 2.
Proof.
  rewrite <- sum2_plus, <- sum2_minus. unfold Rdiv. rewrite <- sum2_scal_r. apply sum2_ext. intros. field.
Qed.

Lemma roll_px a b ny nx dy dx y x : is_roll a b ny nx dy dx -> (0 < ny)%Z -> (0 < nx)%Z ->
  pxw b ny nx y x = pxw a ny nx (y - dy) (x - dx).
Proof.
  intros [H1 [H2 H]] Hy Hx. unfold pxw, px. rewrite H by (apply Z.mod_pos_bound; auto).
  rewrite !Zminus_mod_idemp_l. reflexivity.
Qed.

Lemma pxw_in a ny nx y x : (0 <= y < ny)%Z -> (0 <= x < nx)%Z -> pxw a ny nx y x = px a y x.
Proof. intros Hy Hx. unfold pxw. rewrite !Z.mod_small by auto. reflexivity. Qed.

Lemma energy_shift a ny nx s t : (0 < ny)%Z -> (0 < nx)%Z ->
  sum2 ny nx (fun i j => pxw a ny nx (i + s) (j + t) * pxw a ny nx (i + s) (j + t)) = energy2 a ny nx.
Proof.
  intros Hy Hx. unfold pxw. rewrite (sum2_shift ny nx (fun i j => px a i j * px a i j) s t) by auto. reflexivity.
Qed.

Theorem C33_roll_peak :
  forall env gb (im1 im2 : arr num) nthreads use_np allow_huge ny nx dy dx,
  is_roll im1 im2 ny nx dy dx -> (0 < ny)%Z -> (0 < nx)%Z ->
  allow_huge = true \/ (16 * (ny * nx) <= gb)%Z ->
  let py := (((ny - 1) / 2 - dy) mod ny)%Z in
  let qx := (((nx - 1) / 2 - dx) mod nx)%Z in
  exists cc, correlate2d env gb im1 im2 BWrap nthreads use_np allow_huge = Ok cc /\ shape cc = [ny; nx] /\
    g2 cc py qx = energy2 im1 ny nx /\
    (forall k l, (0 <= k < ny)%Z -> (0 <= l < nx)%Z -> g2 cc k l <= g2 cc py qx) /\
    (forall k l, (0 <= k < ny)%Z -> (0 <= l < nx)%Z ->
       (g2 cc k l = g2 cc py qx <-> symmetric_under im1 ny nx (py - k) (qx - l))).
Proof.
  intros env gb im1 im2 nt np huge ny nx dy dx HR Hy Hx Hh py qx.
  assert (HR' := HR). destruct HR' as [H1 [H2 HRv]].
  destruct (C32_wrap_is_circular_correlation env gb im1 im2 nt np huge ny nx H1 H2 Hy Hx Hh) as [cc [E1 [E2 E3]]].
  assert (Hpy : (0 <= py < ny)%Z) by (apply Z.mod_pos_bound; auto).
  assert (Hqx : (0 <= qx < nx)%Z) by (apply Z.mod_pos_bound; auto).
  assert (V : forall k l, (0 <= k < ny)%Z -> (0 <= l < nx)%Z ->
    g2 cc k l = energy2 im1 ny nx - sum2 ny nx (fun i j => (px im1 i j - pxw im1 ny nx (i + (py - k)) (j + (qx - l))) *
       (px im1 i j - pxw im1 ny nx (i + (py - k)) (j + (qx - l)))) / 2).
  { intros k l Hk Hl. rewrite E3 by auto. change (pixel_sum ny nx) with (sum2 ny nx).
    rewrite (sum2_ext ny nx _ (fun i j => px im1 i j * pxw im1 ny nx (i + (py - k)) (j + (qx - l)))).
    - rewrite cross_le_energy. rewrite energy_shift by auto. unfold energy2. change (pixel_sum ny nx) with (sum2 ny nx). field.
    - intros i j Hi Hj. f_equal. rewrite (roll_px im1 im2 ny nx dy dx) by auto. unfold pxw, py, qx. f_equal.
      + replace (i + (((ny - 1) / 2 - dy) mod ny - k))%Z with ((i - k) + ((ny - 1) / 2 - dy) mod ny)%Z by lia.
        rewrite Zplus_mod_idemp_r. f_equal. lia.
      + replace (j + (((nx - 1) / 2 - dx) mod nx - l))%Z with ((j - l) + ((nx - 1) / 2 - dx) mod nx)%Z by lia.
        rewrite Zplus_mod_idemp_r. f_equal. lia. }
  assert (Pk : g2 cc py qx = energy2 im1 ny nx).
  { rewrite V by auto. rewrite sum2_const0; [field|]. intros i j Hi Hj.
    replace (i + (py - py))%Z with i by lia. replace (j + (qx - qx))%Z with j by lia. rewrite pxw_in by auto. ring. }
  exists cc. split; [exact E1|]. split; [exact E2|]. split; [exact Pk|]. split.
  - intros k l Hk Hl. rewrite Pk, V by auto.
    assert (0 <= sum2 ny nx (fun i j => (px im1 i j - pxw im1 ny nx (i + (py - k)) (j + (qx - l))) *
       (px im1 i j - pxw im1 ny nx (i + (py - k)) (j + (qx - l))))) by (apply sum2_nonneg; intros; apply Rle_0_sqr). lra.
  - intros k l Hk Hl. rewrite Pk, V by auto. split.
    + intros E y x HY HX.
      assert (Z0 : sum2 ny nx (fun i j => (px im1 i j - pxw im1 ny nx (i + (py - k)) (j + (qx - l))) *
       (px im1 i j - pxw im1 ny nx (i + (py - k)) (j + (qx - l)))) = 0) by lra.
      assert (G := sum2_nonneg_0 ny nx _ ltac:(intros; apply Rle_0_sqr) Z0 y x HY HX). cbv beta in G. apply Rmult_integral in G. lra.
    + intros S. rewrite sum2_const0; [lra|]. intros i j Hi Hj. rewrite S by auto. ring.
Qed.
Print Assumptions C33_roll_peak.

(** hence the peak is unique exactly when no non-trivial translation leaves the image unchanged *)
Theorem C33_peak_unique :
  forall env gb (im1 im2 : arr num) nthreads use_np allow_huge ny nx dy dx,
  is_roll im1 im2 ny nx dy dx -> (0 < ny)%Z -> (0 < nx)%Z ->
  allow_huge = true \/ (16 * (ny * nx) <= gb)%Z ->
  (forall s t, symmetric_under im1 ny nx s t -> (s mod ny = 0 /\ t mod nx = 0)%Z) ->
  exists cc, correlate2d env gb im1 im2 BWrap nthreads use_np allow_huge = Ok cc /\
    forall k l, (0 <= k < ny)%Z -> (0 <= l < nx)%Z ->
      (forall y x, (0 <= y < ny)%Z -> (0 <= x < nx)%Z -> g2 cc y x <= g2 cc k l) ->
      (k = ((ny - 1) / 2 - dy) mod ny /\ l = ((nx - 1) / 2 - dx) mod nx)%Z.
Proof.
  intros env gb im1 im2 nt np huge ny nx dy dx HR Hy Hx Hh Hs.
  destruct (C33_roll_peak env gb im1 im2 nt np huge ny nx dy dx HR Hy Hx Hh) as [cc [E1 [E2 [E3 [E4 E5]]]]].
  exists cc. split; [exact E1|]. intros k l Hk Hl Hm.
  assert (Hpy : (0 <= ((ny - 1) / 2 - dy) mod ny < ny)%Z) by (apply Z.mod_pos_bound; auto).
  assert (Hqx : (0 <= ((nx - 1) / 2 - dx) mod nx < nx)%Z) by (apply Z.mod_pos_bound; auto).
  assert (Eq : g2 cc k l = g2 cc (((ny - 1) / 2 - dy) mod ny) (((nx - 1) / 2 - dx) mod nx)) by (apply Rle_antisym; auto).
  apply E5 in Eq; auto. apply Hs in Eq. destruct Eq as [A B].
  apply Z.mod_divide in A; [|lia]. apply Z.mod_divide in B; [|lia]. destruct A as [qa A]. destruct B as [qb B].
  assert (qa = 0)%Z by nia. assert (qb = 0)%Z by nia. subst. lia.
Qed.
Print Assumptions C33_peak_unique.

Example C33_nonvacuous : let im1 := mk2 1 3 (fun y x => if (x =? 0)%Z then Fin 1 else Fin 0) in
  is_roll im1 (mk2 1 3 (fun y x => if (x =? 1)%Z then Fin 1 else Fin 0)) 1 3 0 1 /\
  (forall s t, symmetric_under im1 1 3 s t -> (s mod 1 = 0 /\ t mod 3 = 0)%Z).
Proof.
  cbv zeta. split.
  - repeat split. intros y x HY HX. assert (H : (x = 0 \/ x = 1 \/ x = 2)%Z) by lia. destruct H as [->|[->| ->]]; reflexivity.
  - intros s t H. split; [apply Z.mod_1_r|]. specialize (H 0%Z 0%Z ltac:(lia) ltac:(lia)). unfold pxw, px in H. simpl in H.
    assert (G := Z.mod_pos_bound t 3 ltac:(lia)). assert (E : (t mod 3 = 0 \/ t mod 3 = 1 \/ t mod 3 = 2)%Z) by lia.
    destruct E as [->|[E|E]]; auto; rewrite E in H; simpl in H; lra.
Qed.
