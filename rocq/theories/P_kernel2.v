(** C86: make_kernel with another normalisation than the sum; degenerate widths *)
From Coq Require Import ZArith Lia List Reals Lra Bool FunctionalExtensionality.
From Coquelicot Require Import Complex.
From Verif Require Import Base NDim DFT Kernel Num Py M_downsample L_downsample M_xcorr M_register Arg M_kernel Spec Spec6 P_kernel.
Import ListNotations.
Open Scope R_scope.

(** m is the largest value of the array a (specification of np.max) *)
Definition is_peak (a : arr R) (m : R) : Prop := (exists i, inb (shape a) i /\ get a i = m) /\ forall i, inb (shape a) i -> get a i <= m.
(** a function that returns the largest value of every non-empty array, such as np.max *)
Definition peak_function (f : arr R -> R) : Prop := forall a, pos_shape (shape a) -> is_peak a (f a).

Lemma is_peak_unique a m m' : is_peak a m -> is_peak a m' -> m = m'.
Proof. intros [[i [Hi E]] A] [[j [Hj E']] B]. apply Rle_antisym; [rewrite <- E; auto|rewrite <- E'; auto]. Qed.
(** such functions exist *)
Lemma np_max_is_peak : peak_function (fun a => maxN (shape a) (get a)).
Proof. intros a H. destruct (maxN_spec (shape a) (get a) H) as [[i [Hi E]] M]. split; [exists i; split; [auto|congruence]|exact M]. Qed.

(** *** with np.max the kernel is the documented profile itself, with peak 1 *)
Theorem C86_gaussian_peak_one :
  forall lio sc sh w trap f, sh <> [] -> pos_shape sh -> pval w <> 0 -> peak_function f ->
  exists k, make_kernel lio sc sh w KGaussian trap (NFun f) false = Ok (amap XF k) /\ shape k = sh /\ is_peak k 1 /\
    get k (fft_origin sh) = 1 /\ forall i, inb sh i -> get k i = exp (- dist2 (map IZR (fft_origin sh)) i / (2 * pval w ^ 2)).
Proof.
  intros lio sc sh w trap f Hne Hp Hw Hf. unfold make_kernel. destruct sh as [|n0 sh0]; [congruence|]. set (sh := n0 :: sh0) in *.
  rewrite (shape_check_ok false sh Hp). cbn [bind]. destruct (Req_EM_T (pval w) 0) as [E|_]; [contradiction|].
  set (k0 := Arr sh _).
  assert (G : forall i, get k0 i = exp (- dist2 (map IZR (fft_origin sh)) i / (2 * pval w ^ 2))).
  { intros i. unfold k0. cbn [get]. rewrite radius2_fft. rewrite sqrt_pow2' by apply dist2_nonneg. reflexivity. }
  assert (P : is_peak k0 1).
  { assert (O : get k0 (fft_origin sh) = 1) by (rewrite G, dist2_0; unfold Rdiv; rewrite Ropp_0, Rmult_0_l; apply exp_0).
    split; [exists (fft_origin sh); split; [apply fft_origin_inb; auto|exact O]|]. intros i _. rewrite G, <- exp_0.
    assert (D := dist2_nonneg (map IZR (fft_origin sh)) i). assert (0 < 2 * pval w ^ 2) by (assert (0 < pval w ^ 2) by (apply pow2_gt_0; auto); lra).
    assert (L : - dist2 (map IZR (fft_origin sh)) i / (2 * pval w ^ 2) <= 0).
    { unfold Rdiv. rewrite <- (Rmult_0_l (/ (2 * pval w ^ 2))). apply Rmult_le_compat_r; [left; apply Rinv_0_lt_compat; auto|lra]. }
    destruct L as [L|L]; [left; apply exp_increasing; auto|rewrite L; lra]. }
  assert (Ef : f k0 = 1) by (apply (is_peak_unique k0); [apply Hf; auto|exact P]). rewrite Ef.
  exists (Arr sh (fun i => get k0 i / 1)). rewrite divide_ok by lra. split; [reflexivity|]. split; [reflexivity|].
  assert (D : forall x, x / 1 = x) by (intros; field). split; [|split].
  - destruct P as [[i [Hi E]] M]. split; [exists i; split; [exact Hi|]; cbn [get]; rewrite D; exact E|]. intros j Hj. cbn [get]. rewrite D. apply M. exact Hj.
  - cbn [get]. rewrite D, G, dist2_0. unfold Rdiv. rewrite Ropp_0, Rmult_0_l. apply exp_0.
  - intros i _. cbn [get]. rewrite D. apply G.
Qed.
Print Assumptions C86_gaussian_peak_one.

Theorem C86_tophat_peak_one :
  forall lio sc sh w trap f, sh <> [] -> pos_shape sh -> peak_function f -> (exists i, inb sh i /\ sqrt (dist2 (grid_middle sh) i) < pval w) ->
  exists k, make_kernel lio sc sh w KTophat trap (NFun f) false = Ok (amap XF k) /\ shape k = sh /\ is_peak k 1 /\
    forall i, inb sh i -> (sqrt (dist2 (grid_middle sh) i) < pval w -> get k i = 1) /\ (~ sqrt (dist2 (grid_middle sh) i) < pval w -> get k i = 0).
Proof.
  intros lio sc sh w trap f Hne Hp Hf [i0 [Hi0 Hlt]]. unfold make_kernel. destruct sh as [|n0 sh0]; [congruence|]. set (sh := n0 :: sh0) in *.
  rewrite (shape_check_ok false sh Hp). cbn [bind]. set (k0 := Arr sh _).
  assert (G : forall i, get k0 i = if Rlt_dec (sqrt (dist2 (grid_middle sh) i)) (pval w) then 1 else 0).
  { intros i. unfold k0. cbn [get]. rewrite radius2_mid. reflexivity. }
  assert (P : is_peak k0 1).
  { split; [exists i0; split; [exact Hi0|]; rewrite G; destruct (Rlt_dec _ _); [reflexivity|contradiction]|]. intros i _. rewrite G. destruct (Rlt_dec _ _); lra. }
  assert (Ef : f k0 = 1) by (apply (is_peak_unique k0); [apply Hf; auto|exact P]). rewrite Ef.
  exists (Arr sh (fun i => get k0 i / 1)). rewrite divide_ok by lra. split; [reflexivity|]. split; [reflexivity|].
  assert (D : forall x, x / 1 = x) by (intros; field). split.
  - destruct P as [[i [Hi E]] M]. split; [exists i; split; [exact Hi|]; cbn [get]; rewrite D; exact E|]. intros j Hj. cbn [get]. rewrite D. apply M. exact Hj.
  - intros i _. cbn [get]. rewrite D, G. destruct (Rlt_dec _ _); split; intros; tauto || reflexivity.
Qed.
Print Assumptions C86_tophat_peak_one.

(** numpy before 1.23 *)
Theorem C86_boxcar_peak_one :
  forall sc sh w trap f, sh <> [] -> (0 < w)%Z -> Forall (fun n => (w <= n)%Z) sh -> peak_function f ->
  exists k, make_kernel true sc sh (PInt w) KBoxcar trap (NFun f) false = Ok (amap XF k) /\ shape k = sh /\ is_peak k 1 /\
    forall i, inb sh i -> (in_centred_box w sh i -> get k i = 1) /\ (~ in_centred_box w sh i -> get k i = 0).
Proof.
  intros sc sh w trap f Hne Hw Hfa Hf. unfold make_kernel. destruct sh as [|n0 sh0]; [congruence|]. set (sh := n0 :: sh0) in *.
  assert (Hp : pos_shape sh) by (apply Forall_forall; intros n Hn; rewrite Forall_forall in Hfa; specialize (Hfa n Hn); lia).
  rewrite (shape_check_ok true sh Hp). cbn [bind negb]. set (k0 := Arr sh _).
  assert (G : forall i, inb sh i -> (in_centred_box w sh i -> get k0 i = 1) /\ (~ in_centred_box w sh i -> get k0 i = 0)).
  { intros i Hi. unfold k0. cbn [get]. assert (B := in_box_iff w sh i ltac:(lia) Hfa Hi). destruct (in_box w sh i); split; intros Q; try reflexivity; exfalso; [tauto|]. apply B in Q. discriminate. }
  assert (Ci : inb sh (fft_origin sh) /\ in_centred_box w sh (fft_origin sh)).
  { split; [apply fft_origin_inb; auto|]. clear - Hw Hfa. induction sh as [|n l IH]; [exact I|]. inversion Hfa; subst. cbn [fft_origin map in_centred_box]. split; [|apply IH; auto]. Z.to_euclidean_division_equations; lia. }
  assert (P : is_peak k0 1).
  { split; [exists (fft_origin sh); split; [apply Ci|]; apply G; apply Ci|]. intros i Hi. destruct (G i Hi) as [A B]. cbn [k0 get]. unfold k0 in *. cbn [get] in *. destruct (in_box w sh i); lra. }
  assert (Ef : f k0 = 1) by (apply (is_peak_unique k0); [apply Hf; auto|exact P]). rewrite Ef.
  exists (Arr sh (fun i => get k0 i / 1)). rewrite divide_ok by lra. split; [reflexivity|]. split; [reflexivity|].
  assert (D : forall x, x / 1 = x) by (intros; field). split.
  - destruct P as [[i [Hi E]] M]. split; [exists i; split; [exact Hi|]; cbn [get]; rewrite D; exact E|]. intros j Hj. cbn [get]. rewrite D. apply M. exact Hj.
  - intros i Hi. cbn [get]. rewrite D. apply G. exact Hi.
Qed.
Print Assumptions C86_boxcar_peak_one.

(** *** the trapezoid ignores normalize_kernel: whatever function is passed, the result is the one normalised by the sum *)
Theorem C86_trapezoid_ignores_normalize_kernel_refuted :
  (forall lio sc sh w trap odd n1 n2, make_kernel lio sc sh w KTrapezoid trap n1 odd = make_kernel lio sc sh w KTrapezoid trap n2 odd) /\
  (* so that np.max does not give a kernel of peak 1 *)
  (exists k, (forall lio sc norm, make_kernel lio sc [3%Z] (PInt 2) KTrapezoid (Some 1) norm false = Ok (amap XF k)) /\ is_peak k (1/3)).
Proof.
  split; [intros; reflexivity|].
  destruct (C60_trapezoid true true [3%Z] (PInt 2) 1 NTrue ltac:(discriminate) ltac:(repeat constructor; lia) ltac:(lra)) as [k [z [E [S [T [Z G]]]]]].
  { exists [1%Z]. split; [cbn; lia|]. cbn. replace ((1 - (3 - 1) / 2) * ((1 - (3 - 1) / 2) * 1) + 0) with 0 by field. rewrite sqrt_0. lra. }
  exists k. split; [intros lio sc norm; rewrite <- E; reflexivity|].
  assert (V : forall i, inb [3%Z] i -> get k i = z).
  { intros i Hi. rewrite (G i Hi). destruct (Rlt_dec _ _) as [_|N]; [ring|]. exfalso. apply N. destruct i as [|a [|? ?]]; cbn [inb] in Hi; try tauto.
    apply Rle_lt_trans with (sqrt 1); [|rewrite sqrt_1; cbn; lra]. apply sqrt_le_1_alt. cbn.
    assert (a = 0 \/ a = 1 \/ a = 2)%Z as [-> | [-> | ->]] by lia; lra. }
  assert (z = 1/3).
  { unfold total in T. rewrite S in T. rewrite (sumNR_ext [3%Z] _ (fun _ => z)) in T by (intros; apply V; auto). rewrite sumNR_cons in T.
    rewrite (sumR_ext 3 _ (fun _ => z)) in T by (intros; apply sumNR_nil). rewrite sumR_const in T by lia. lra. }
  subst z. split; rewrite S; [exists [1%Z]; split; [cbn; lia|apply V; cbn; lia]|]. intros i Hi. rewrite (V i Hi). lra.
Qed.
Print Assumptions C86_trapezoid_ignores_normalize_kernel_refuted.

(** *** degenerate widths give kernels of NaN, not errors: a tophat that covers no pixel centre (in particular any width <= 0), a gaussian of
    width 0, a boxcar of width <= 0, whether normalised by the sum or by the peak *)
Lemma divide_zero k : (forall i, inb (shape k) i -> get k i = 0) -> forall i, inb (shape k) i -> get (divide k 0) i = XNaN.
Proof. intros H i Hi. unfold divide, amap. cbn [get]. rewrite (H i Hi). cbn [xdiv]. destruct (Req_EM_T 0 0); [|congruence]. destruct (Req_EM_T 0 0); [reflexivity|congruence]. Qed.
Lemma zero_norm k f : pos_shape (shape k) -> (forall i, inb (shape k) i -> get k i = 0) -> f = total \/ peak_function f -> f k = 0.
Proof.
  intros Hp Z [-> | Hf]; [unfold total; rewrite (sumNR_ext _ _ (fun _ => 0)) by (intros; apply Z; auto); apply sumNR_const0; reflexivity|].
  destruct (Hf k Hp) as [[i [Hi E]] _]. rewrite <- E. apply Z. exact Hi.
Qed.
Definition all_nan (r : res (arr xnum)) (sh : list Z) : Prop := exists k, r = Ok k /\ shape k = sh /\ forall i, inb sh i -> get k i = XNaN.
Theorem C86_degenerate_widths_give_nan :
  forall lio sc sh w trap f, sh <> [] -> pos_shape sh -> f = total \/ peak_function f ->
  ((forall i, inb sh i -> pval w <= sqrt (dist2 (grid_middle sh) i)) -> all_nan (make_kernel lio sc sh w KTophat trap (NFun f) false) sh) /\
  (pval w <= 0 -> all_nan (make_kernel lio sc sh w KTophat trap (NFun f) false) sh) /\
  (pval w = 0 -> all_nan (make_kernel lio sc sh w KGaussian trap (NFun f) false) sh) /\
  (forall z, w = PInt z -> (z = 0 \/ z = -1)%Z -> all_nan (make_kernel true sc sh w KBoxcar trap (NFun f) false) sh).
Proof.
  intros lio sc sh w trap f Hne Hp Hf.
  assert (T : (forall i, inb sh i -> pval w <= sqrt (dist2 (grid_middle sh) i)) -> all_nan (make_kernel lio sc sh w KTophat trap (NFun f) false) sh).
  { intros H. unfold make_kernel. destruct sh as [|n0 sh0]; [congruence|]. set (sh := n0 :: sh0) in *. rewrite (shape_check_ok false sh Hp). cbn [bind]. set (k0 := Arr sh _).
    assert (Z : forall i, inb (shape k0) i -> get k0 i = 0). { intros i Hi. unfold k0. cbn [get]. rewrite radius2_mid. specialize (H i Hi). destruct (Rlt_dec _ _); [lra|reflexivity]. }
    rewrite (zero_norm k0 f Hp Z Hf). exists (divide k0 0). split; [reflexivity|]. split; [reflexivity|]. intros i Hi. apply divide_zero; auto. }
  split; [exact T|]. split; [|split].
  - intros H. apply T. intros i _. assert (Q := sqrt_pos (dist2 (grid_middle sh) i)). lra.
  - intros H. unfold make_kernel. destruct sh as [|n0 sh0]; [congruence|]. set (sh := n0 :: sh0) in *. rewrite (shape_check_ok false sh Hp). cbn [bind]. destruct (Req_EM_T (pval w) 0); [|contradiction].
    eexists. split; [reflexivity|]. split; reflexivity.
  - intros z -> Hz. unfold make_kernel. destruct sh as [|n0 sh0]; [congruence|]. set (sh := n0 :: sh0) in *. rewrite (shape_check_ok true sh Hp). cbn [bind negb]. set (k0 := Arr sh _).
    assert (Z : forall i, inb (shape k0) i -> get k0 i = 0).
    { intros i Hi. unfold k0. cbn [get]. destruct i as [|a i]; [destruct Hi|]. unfold sh. cbn [in_box].
      replace (in_slice _ _ _ _) with false; [reflexivity|]. symmetry. apply not_true_is_false. unfold in_slice, pyslice. rewrite andb_true_iff, Z.leb_le, Z.ltb_lt.
      assert (Hn := Forall_inv Hp). destruct Hz as [-> | ->].
      - change (0 / 2)%Z with 0%Z. change ((0 + 1) / 2)%Z with 0%Z. destruct (Z.ltb_spec (n0 - (n0 + 1) / 2 - 0) 0); destruct (Z.ltb_spec (n0 - (n0 + 1) / 2 + 0) 0); lia.
      - change (-1 / 2)%Z with (-1)%Z. change ((-1 + 1) / 2)%Z with 0%Z. destruct (Z.ltb_spec (n0 - (n0 + 1) / 2 - -1) 0); destruct (Z.ltb_spec (n0 - (n0 + 1) / 2 + 0) 0); Z.to_euclidean_division_equations; lia. }
    rewrite (zero_norm k0 f Hp Z Hf). exists (divide k0 0). split; [reflexivity|]. split; [reflexivity|]. intros i Hi. apply divide_zero; auto.
Qed.
Print Assumptions C86_degenerate_widths_give_nan.

Example C86_nonvacuous :
  (exists k, make_kernel true true [5%Z; 4%Z] (PFloat (3/2)) KGaussian None (NFun (fun a => maxN (shape a) (get a))) false = Ok (amap XF k) /\ get k [2; 2]%Z = 1) /\
  all_nan (make_kernel true true [4%Z; 4%Z] (PFloat (1/2)) KTophat None (NFun total) false) [4; 4]%Z.
Proof.
  split.
  - destruct (C86_gaussian_peak_one true true [5%Z; 4%Z] (PFloat (3/2)) None _ ltac:(discriminate) ltac:(repeat constructor; lia) ltac:(cbn; lra) np_max_is_peak) as [k [E [_ [_ [O _]]]]].
    exists k. split; [exact E|exact O].
  - refine (proj1 (C86_degenerate_widths_give_nan true true [4%Z; 4%Z] (PFloat (1/2)) None total _ _ _) _); [discriminate|repeat constructor; lia|left; reflexivity|].
    intros [|a [|b [|? ?]]] H; cbn [inb] in H; try tauto. cbn [pval grid_middle map dist2]. rewrite <- (sqrt_pow2 (1/2)) by lra. apply sqrt_le_1_alt.
    assert (Q : 1/4 <= (IZR a - (4 - 1) / 2) ^ 2); [|assert (0 <= (IZR b - (4 - 1) / 2) ^ 2) by (apply pow2_ge_0); lra].
    assert (a = 0 \/ a = 1 \/ a = 2 \/ a = 3)%Z as [-> | [-> | [-> | ->]]] by lia; lra.
Qed.
