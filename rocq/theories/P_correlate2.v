(** More about C32: correlate2d with the images exchanged, of different sizes, and its exits *)
From Coq Require Import ZArith Lia List Reals Lra Bool.
From Coquelicot Require Import Complex.
From Verif Require Import Base NDim DFT Kernel Py M_fast_ffts M_shift M_convolve M_correlate Spec L_shift L_convolve Sum2 Spec2 L_correlate
  P_convolve P_convolve2 P_correlate.
Import ListNotations.
Open Scope R_scope.

(** Exchanging the images mirrors the correlation about the zero-lag pixel. *)
Theorem C32_exchange :
  forall env gb (im1 im2 : arr num) nthreads use_np allow_huge ny nx,
  shape im1 = [ny; nx] -> shape im2 = [ny; nx] -> (0 < ny)%Z -> (0 < nx)%Z ->
  allow_huge = true \/ (16 * (ny * nx) <= gb)%Z ->
  exists c12 c21,
    correlate2d env gb im1 im2 BWrap nthreads use_np allow_huge = Ok c12 /\
    correlate2d env gb im2 im1 BWrap nthreads use_np allow_huge = Ok c21 /\
    forall k l, (0 <= k < ny)%Z -> (0 <= l < nx)%Z ->
      g2 c21 k l = g2 c12 ((2 * ((ny - 1) / 2) - k) mod ny) ((2 * ((nx - 1) / 2) - l) mod nx).
Proof.
  intros env gb im1 im2 nt np huge ny nx H1 H2 Hy Hx Hh.
  destruct (C32_wrap_is_circular_correlation env gb im1 im2 nt np huge ny nx H1 H2 Hy Hx Hh) as [c [E1 [E2 E3]]].
  destruct (C32_wrap_is_circular_correlation env gb im2 im1 nt np huge ny nx H2 H1 Hy Hx Hh) as [d [F1 [F2 F3]]].
  exists c, d. split; [exact E1|]. split; [exact F1|]. intros k l Hk Hl.
  rewrite F3 by auto. rewrite E3 by (apply Z.mod_pos_bound; auto). change (pixel_sum ny nx) with (sum2 ny nx).
  rewrite <- (sum2_shift ny nx _ (k - (ny - 1) / 2) (l - (nx - 1) / 2)) by auto. apply sum2_ext. intros i j Hi Hj.
  rewrite Rmult_comm. unfold pxw. f_equal.
  - f_equal.
    + replace ((i + (k - (ny - 1) / 2)) mod ny + (ny - 1) / 2 - k)%Z with ((i + (k - (ny - 1) / 2)) mod ny + ((ny - 1) / 2 - k))%Z by lia.
      rewrite Zplus_mod_idemp_l. replace (i + (k - (ny - 1) / 2) + ((ny - 1) / 2 - k))%Z with i by lia. apply Z.mod_small; lia.
    + replace ((j + (l - (nx - 1) / 2)) mod nx + (nx - 1) / 2 - l)%Z with ((j + (l - (nx - 1) / 2)) mod nx + ((nx - 1) / 2 - l))%Z by lia.
      rewrite Zplus_mod_idemp_l. replace (j + (l - (nx - 1) / 2) + ((nx - 1) / 2 - l))%Z with j by lia. apply Z.mod_small; lia.
  - f_equal; rewrite Zminus_mod_idemp_r; f_equal; lia.
Qed.
Print Assumptions C32_exchange.

(** Exits: images with fewer than two axes, different numbers of axes, an unsupported boundary *)
Theorem C32_errors :
  forall env gb (im1 im2 : arr num) b nthreads use_np allow_huge,
  ((length (shape im2) < 2)%nat -> correlate2d env gb im1 im2 b nthreads use_np allow_huge = Raise IndexError) /\
  ((2 <= length (shape im2))%nat -> length (shape im1) <> length (shape im2) ->
     correlate2d env gb im1 im2 b nthreads use_np allow_huge = Raise ValueError) /\
  ((2 <= length (shape im2))%nat -> length (shape im1) = length (shape im2) ->
     correlate2d env gb im1 im2 BExtend nthreads use_np allow_huge = Raise NotImplementedError).
Proof.
  intros env gb im1 im2 b nt np huge. unfold correlate2d. destruct (get_ffts env nt np) as [f i].
  split; [|split].
  - intros H. unfold rev2. destruct (shape im2) as [|a [|c l]]; simpl in H; try reflexivity. lia.
  - intros H Hl. unfold rev2. destruct (shape im2) as [|a [|c l]] eqn:E; simpl in H; try lia. cbn [bind]. unfold convolve_fft, ndim. cbn [shape].
    rewrite (proj2 (Nat.eqb_neq _ _)) by exact Hl. reflexivity.
  - intros H Hl. unfold rev2. destruct (shape im2) as [|a [|c l]] eqn:E; simpl in H; try lia. cbn [bind]. unfold convolve_fft, ndim. cbn [shape].
    rewrite (proj2 (Nat.eqb_eq _ _)) by exact Hl. reflexivity.
Qed.
Print Assumptions C32_errors.

(** The memory limit for the padded boundaries: the padded image is a square of side the least power of two holding both images. *)
Theorem C32_size_limit_fill :
  forall env gb (im1 im2 : arr num) b nthreads use_np ny nx my mx P,
  shape im1 = [ny; nx] -> shape im2 = [my; mx] -> (0 < ny)%Z -> (0 < nx)%Z -> (0 < my)%Z -> (0 < mx)%Z ->
  b = BFill \/ b = BNone -> least_pow2 P [(ny + my)%Z; (nx + mx)%Z] ->
  ((gb < 16 * (P * P))%Z -> correlate2d env gb im1 im2 b nthreads use_np false = Raise ValueError) /\
  ((16 * (P * P) <= gb)%Z -> correlate2d env gb im1 im2 b nthreads use_np false = correlate2d env gb im1 im2 b nthreads use_np true).
Proof.
  intros env gb im1 im2 b nt np ny nx my mx P H1 H2 Hy Hx Hmy Hmx Hb HP.
  assert (EP : P = pow2ceil (maxl [(ny + my)%Z; (nx + mx)%Z])).
  { assert (G : least_pow2 (pow2ceil (maxl [(ny + my)%Z; (nx + mx)%Z])) [(ny + my)%Z; (nx + mx)%Z]).
    { apply least_pow2_ok; [repeat constructor; lia|discriminate]. }
    destruct HP as [[j [Hj ->]] [P2 P3]]. destruct G as [[j' [Hj' E]] [G2 G3]]. rewrite E in *.
    assert (A := P3 j' Hj' G2). assert (B := G3 j Hj P2). lia. }
  assert (EN : prodZ (newshape true true [ny; nx] [my; mx]) = (P * P)%Z).
  { unfold newshape. cbn [map]. change (addl [ny; nx] [my; mx]) with [(ny + my)%Z; (nx + mx)%Z]. rewrite <- EP. unfold prodZ. simpl. lia. }
  unfold correlate2d. destruct (get_ffts env nt np) as [f i]. unfold rev2. rewrite H2. cbn [bind]. unfold convolve_fft, ndim. cbn [shape].
  rewrite H1. cbn [length Nat.eqb negb].
  replace (match b with BNone | BFill => Ok (true, true) | BWrap => Ok (false, false) | BExtend => Raise NotImplementedError | BOther => Raise Unmodelled end)
    with (Ok (true, true)) by (destruct Hb; subst b; reflexivity). cbn [bind]. rewrite EN. cbn [negb andb]. split; intros H.
  - destruct (Z.ltb_spec gb (16 * (P * P))); [reflexivity|lia].
  - destruct (Z.ltb_spec gb (16 * (P * P))); [lia|reflexivity].
Qed.
Print Assumptions C32_size_limit_fill.

Example C32_fill_limit_nonvacuous : least_pow2 16 [(4 + 5)%Z; (3 + 7)%Z].
Proof.
  split; [exists 4%Z; split; [lia|reflexivity]|]. split; [repeat constructor; lia|]. intros j Hj H. inversion H; subst.
  destruct (Z_le_gt_dec 4 j) as [Q|Q]; [change 16%Z with (2 ^ 4)%Z; apply Z.pow_le_mono_r; lia|].
  exfalso. assert (2 ^ j <= 2 ^ 3)%Z by (apply Z.pow_le_mono_r; lia). lia.
Qed.
