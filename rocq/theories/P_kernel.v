(** C60, C61, C62: make_kernel, smooth *)
From Coq Require Import ZArith Lia List Reals Lra Bool FunctionalExtensionality.
From Coquelicot Require Import Complex.
From Verif Require Import Base NDim DFT Kernel Num Py M_downsample L_downsample M_xcorr M_register Arg M_kernel Spec Spec6.
Import ListNotations.
Open Scope R_scope.

Lemma pow2_gt_0 x : x <> 0 -> 0 < x ^ 2.
Proof. intros H. assert (Q := pow2_ge_0 x). assert (x ^ 2 <> 0) by (apply pow_nonzero; auto). lra. Qed.
Lemma shape_check_ok b sh : pos_shape sh -> shape_check b sh = Ok tt.
Proof.
  intros H. unfold shape_check. replace (existsb _ sh) with false; [reflexivity|]. symmetry. apply not_true_is_false. rewrite existsb_exists.
  intros [n [Hn Q]]. unfold pos_shape in H. rewrite Forall_forall in H. specialize (H n Hn). destruct b; [apply Z.ltb_lt in Q|apply Z.leb_le in Q]; lia.
Qed.
Lemma divide_ok k s : s <> 0 -> divide k s = amap XF (Arr (shape k) (fun i => get k i / s)).
Proof.
  intros H. unfold divide, amap. cbn [shape get]. f_equal. apply functional_extensionality. intros i. cbn [xdiv]. destruct (Req_EM_T s 0); [contradiction|reflexivity].
Qed.
Lemma normalised_total k s : s = np_sum k -> s <> 0 -> total (Arr (shape k) (fun i => get k i / s)) = 1.
Proof.
  intros -> H. unfold total. cbn [shape get]. unfold Rdiv. rewrite sumNR_scal_r. fold (np_sum k). field. exact H.
Qed.
Lemma radius2_nonneg c sh : forall i, 0 <= radius2 c sh i.
Proof. induction sh as [|n sh IH]; intros [|k i]; cbn [radius2]; try lra. specialize (IH i). assert (0 <= (IZR k - c n) ^ 2) by (apply pow2_ge_0). lra. Qed.
Lemma radius2_fft sh : forall i, radius2 fft_centre sh i = dist2 (map IZR (fft_origin sh)) i.
Proof. induction sh as [|n sh IH]; intros [|k i]; cbn; try reflexivity. rewrite IH. unfold fft_centre. replace (n - 1 + 1)%Z with n by lia. reflexivity. Qed.
Lemma radius2_mid sh : forall i, radius2 mid_centre sh i = dist2 (grid_middle sh) i.
Proof. induction sh as [|n sh IH]; intros [|k i]; cbn; try reflexivity. rewrite IH. unfold mid_centre. rewrite minus_IZR. reflexivity. Qed.
Lemma fft_origin_inb sh : pos_shape sh -> inb sh (fft_origin sh).
Proof. induction sh as [|n sh IH]; intros H; [exact I|]. apply pos_shape_cons in H. destruct H as [Hn H]. split; [|auto]. Z.to_euclidean_division_equations; lia. Qed.
Lemma dist2_nonneg c : forall i, 0 <= dist2 c i.
Proof. induction c as [|x c IH]; intros [|k i]; cbn [dist2]; try lra. specialize (IH i). assert (0 <= (IZR k - x) ^ 2) by (apply pow2_ge_0). lra. Qed.
Lemma dist2_0 c : dist2 (map IZR c) c = 0.
Proof. induction c as [|x c IH]; cbn [dist2 map]; [lra|]. rewrite IH. ring. Qed.
Lemma dist2_pos c : forall i, length i = length c -> i <> c -> 0 < dist2 (map IZR c) i.
Proof.
  induction c as [|x c IH]; intros [|k i] L N; cbn [dist2 map length] in *; try discriminate; [congruence|].
  destruct (Z.eq_dec k x) as [->|Nk].
  - assert (H : 0 < dist2 (map IZR c) i) by (apply IH; [lia|congruence]). assert (Q := pow2_ge_0 (IZR x - IZR x)). lra.
  - assert (Q := dist2_nonneg (map IZR c) i). assert (0 < (IZR k - IZR x) ^ 2); [|lra]. rewrite <- minus_IZR. apply pow2_gt_0. apply IZR_neq0. lia.
Qed.

Lemma flip_inb sh : forall i, inb sh i -> inb sh (flip sh i).
Proof. induction sh as [|n sh IH]; intros [|k i] H; cbn [inb flip zipw] in *; try tauto. split; [lia|]. apply IH. tauto. Qed.
Lemma flip_dist2 sh : forall i, length i = length sh -> dist2 (grid_middle sh) (flip sh i) = dist2 (grid_middle sh) i.
Proof.
  induction sh as [|n sh IH]; intros [|k i] H; cbn [length] in H; try discriminate; [reflexivity|]. cbn [flip zipw grid_middle map dist2]. fold (flip sh i) (grid_middle sh).
  rewrite IH by lia. rewrite !minus_IZR. field.
Qed.
Lemma odd_reflect sh : forall i, Forall (fun n => Z.odd n = true) sh -> reflect (fft_origin sh) i = flip sh i.
Proof.
  induction sh as [|n sh IH]; intros [|k i] H; try reflexivity. inversion H as [|? ? Ho H']; subst. cbn [reflect flip fft_origin map zipw]. f_equal; [|apply IH; auto].
  apply Z.odd_spec in Ho. destruct Ho as [q ->]. Z.to_euclidean_division_equations; lia.
Qed.
Lemma box_reflect w sh : forall i, Z.odd w = true -> inb sh i -> in_centred_box w sh (reflect (fft_origin sh) i) <-> in_centred_box w sh i.
Proof.
  intros i Ho. revert i. induction sh as [|n sh IH]; intros [|k i] H; try tauto; cbn [inb] in H; try tauto.
  cbn [reflect fft_origin map zipw in_centred_box]. fold (fft_origin sh). fold (reflect (fft_origin sh) i). rewrite IH by tauto.
  apply Z.odd_spec in Ho. destruct Ho as [q ->]. assert (E : ((2 * q + 1) / 2 = q)%Z) by (Z.to_euclidean_division_equations; lia). rewrite E.
  split; intros [A B]; (split; [lia|exact B]).
Qed.
(** np.max *)
Lemma max1_spec n g : (0 < n)%Z -> (exists k, (0 <= k < n)%Z /\ max1 n g = g k) /\ forall k, (0 <= k < n)%Z -> g k <= max1 n g.
Proof.
  intros Hn. unfold max1. assert (H : forall l m, let r := fold_left Rmax (map g l) m in (r = m \/ exists k, In k l /\ r = g k) /\ m <= r /\ forall k, In k l -> g k <= r).
  { induction l as [|a l IH]; intros m; cbn [map fold_left]; [split; [auto|split; [lra|intros k []]]|].
    destruct (IH (Rmax m (g a))) as [A [B C]]. assert (M1 := Rmax_l m (g a)). assert (M2 := Rmax_r m (g a)). split; [|split].
    - destruct A as [A|[k [Hk A]]]; [|right; exists k; cbn; auto]. cbv zeta in *. rewrite A. unfold Rmax. destruct (Rle_dec m (g a)); [right; exists a; cbn; auto|auto].
    - cbv zeta in *. lra.
    - intros k [<-|Hk]; [cbv zeta in *; lra|apply C; auto]. }
  destruct (H (zrange n) (g 0%Z)) as [A [_ C]]. split.
  - destruct A as [A|[k [Hk A]]]; [exists 0%Z; split; [lia|exact A]|]. exists k. apply zrange_In in Hk. auto.
  - intros k Hk. apply C. apply zrange_In. auto.
Qed.
Lemma maxN_spec sh : forall f, pos_shape sh -> (exists i, inb sh i /\ maxN sh f = f i) /\ forall i, inb sh i -> f i <= maxN sh f.
Proof.
  induction sh as [|n sh IH]; intros f Hp; cbn [maxN].
  - split; [exists []; split; [exact I|reflexivity]|]. intros [|? ?] H; [lra|destruct H].
  - apply pos_shape_cons in Hp. destruct Hp as [Hn Hp]. destruct (max1_spec n (fun k => maxN sh (fun l => f (k :: l))) Hn) as [[k [Hk E]] M]. split.
    + destruct (proj1 (IH (fun l => f (k :: l)) Hp)) as [i [Hi E']]. exists (k :: i). split; [split; auto|]. rewrite E. exact E'.
    + intros [|k' i] H; [destruct H|]. destruct H as [Hk' Hi]. apply Rle_trans with (maxN sh (fun l => f (k' :: l))); [apply (proj2 (IH (fun l => f (k' :: l)) Hp)); auto|apply M; auto].
Qed.
Lemma corner_inb sh : pos_shape sh -> inb sh (map (fun _ => 0%Z) sh).
Proof. induction sh as [|n sh IH]; intros H; [exact I|]. apply pos_shape_cons in H. destruct H as [Hn H]. split; [lia|auto]. Qed.
Lemma corner_farthest sh : forall i, inb sh i -> radius2 mid_centre sh i <= radius2 mid_centre sh (map (fun _ => 0%Z) sh).
Proof.
  induction sh as [|n sh IH]; intros [|k i] H; cbn [inb] in H; try tauto; cbn [radius2 map]; [lra|]. destruct H as [Hk H]. specialize (IH i H). apply Rplus_le_compat; [|exact IH].
  unfold mid_centre. rewrite minus_IZR. assert (A : 0 <= IZR k) by (apply (IZR_le 0); lia). assert (B : IZR k <= IZR n - 1) by (rewrite <- minus_IZR; apply IZR_le; lia). nra.
Qed.
Lemma maxN_corner sh : pos_shape sh -> maxN sh (fun i => sqrt (radius2 mid_centre sh i)) = sqrt (radius2 mid_centre sh (map (fun _ => 0%Z) sh)).
Proof.
  intros Hp. destruct (maxN_spec sh (fun i => sqrt (radius2 mid_centre sh i)) Hp) as [[i [Hi E]] M]. apply Rle_antisym.
  - rewrite E. apply sqrt_le_1; [apply radius2_nonneg|apply radius2_nonneg|]. apply corner_farthest. auto.
  - apply (M _ (corner_inb sh Hp)).
Qed.

Lemma sqrt_pow2' x : 0 <= x -> sqrt x ^ 2 = x.
Proof. intros H. rewrite <- Rsqr_pow2. apply Rsqr_sqrt. auto. Qed.
(** *** C60: gaussian *)
Theorem C60_gaussian :
  forall lio sc sh w trap norm, sh <> [] -> pos_shape sh -> pval w <> 0 -> norm = NTrue \/ norm = NFun total ->
  exists k, make_kernel lio sc sh w KGaussian trap norm false = Ok (amap XF k) /\ shape k = sh /\ total k = 1 /\
    (* proportional to exp(-r^2/(2 w^2)), r measured from the FFT origin *)
    (exists z, 0 < z /\ forall i, inb sh i -> get k i = z * exp (- dist2 (map IZR (fft_origin sh)) i / (2 * pval w ^ 2))) /\
    (* strictly largest at the origin, positive, symmetric *)
    inb sh (fft_origin sh) /\
    (forall i, inb sh i -> i <> fft_origin sh -> 0 < get k i < get k (fft_origin sh)) /\
    symmetric_about k (fft_origin sh).
Proof.
  intros lio sc sh w trap norm Hne Hp Hw Hnorm. unfold make_kernel. destruct sh as [|n0 sh0]; [congruence|]. set (sh := n0 :: sh0) in *.
  rewrite (shape_check_ok false sh Hp). cbn [bind]. destruct (Req_EM_T (pval w) 0) as [E|_]; [contradiction|].
  set (k0 := Arr sh _).
  assert (En : match norm with NTrue => np_sum | NFun f => f end k0 = np_sum k0) by (destruct Hnorm as [-> | ->]; reflexivity). rewrite En. clear En.
  assert (G : forall i, get k0 i = exp (- dist2 (map IZR (fft_origin sh)) i / (2 * pval w ^ 2))).
  { intros i. unfold k0. cbn [get]. rewrite radius2_fft. rewrite sqrt_pow2' by apply dist2_nonneg. reflexivity. }
  assert (P : 0 < np_sum k0).
  { unfold np_sum. apply Rlt_le_trans with (get k0 (fft_origin sh)); [rewrite G; apply exp_pos|]. apply sumNR_term_le; [|apply fft_origin_inb; auto]. intros i _. rewrite G. left. apply exp_pos. }
  exists (Arr sh (fun i => get k0 i / np_sum k0)). rewrite divide_ok by lra. split; [reflexivity|]. split; [reflexivity|].
  split; [apply (normalised_total k0); [reflexivity|lra]|]. cbn [get].
  assert (PI' : 0 < / np_sum k0) by (apply Rinv_0_lt_compat; auto).
  split; [exists (/ np_sum k0); split; [auto|]; intros i _; rewrite G; unfold Rdiv; ring|].
  split; [apply fft_origin_inb; auto|]. split.
  - intros i Hi Ni. unfold Rdiv. split; [apply Rmult_lt_0_compat; [rewrite G; apply exp_pos|auto]|]. apply Rmult_lt_compat_r; [auto|]. rewrite !G. apply exp_increasing.
    rewrite dist2_0. unfold Rdiv. apply Rmult_lt_compat_r; [apply Rinv_0_lt_compat; assert (0 < pval w ^ 2) by (apply pow2_gt_0; auto); lra|].
    assert (H := dist2_pos (fft_origin sh) i). rewrite (inb_length _ _ Hi) in H. unfold fft_origin in H at 1. rewrite map_length in H. specialize (H eq_refl Ni). lra.
  - intros i Hi _. cbn [get]. f_equal. rewrite !G. do 3 f_equal. clear.
    revert i. induction (fft_origin sh) as [|c l IH]; intros [|a i]; cbn [reflect zipw dist2 map]; try reflexivity. fold (reflect l i). rewrite IH, minus_IZR, mult_IZR. ring.
Qed.
Print Assumptions C60_gaussian.

(** *** C60: boxcar *)
Lemma in_slice_iff n a b k : (0 <= a)%Z -> (a <= b)%Z -> (b <= n)%Z -> in_slice n a b k = true <-> (a <= k < b)%Z.
Proof.
  intros Ha Hb Hn. unfold in_slice, pyslice. destruct (Z.ltb_spec a 0); [lia|]. destruct (Z.ltb_spec b 0); [lia|].
  rewrite andb_true_iff, Z.leb_le, Z.ltb_lt. lia.
Qed.
Lemma in_box_iff w sh : forall i, (0 <= w)%Z -> Forall (fun n => (w <= n)%Z) sh -> inb sh i -> in_box w sh i = true <-> in_centred_box w sh i.
Proof.
  induction sh as [|n sh IH]; intros [|k i] Hw Hf Hi; cbn [in_box in_centred_box inb] in *; try tauto. inversion Hf; subst. destruct Hi as [Hk Hi].
  rewrite andb_true_iff, IH by auto. rewrite in_slice_iff by (Z.to_euclidean_division_equations; lia).
  split; intros [A B]; (split; [|exact B]); Z.to_euclidean_division_equations; lia.
Qed.
Lemma sum_range n a b : (0 <= a)%Z -> (a <= b)%Z -> (b <= n)%Z -> forall c, sumR n (fun k => if in_slice n a b k then c else 0) = IZR (b - a) * c.
Proof.
  intros Ha Hb Hn c. replace n with (a + ((b - a) + (n - b)))%Z at 1 by lia. rewrite !sumR_split by lia.
  rewrite (sumR_const0 a) , (sumR_ext (b - a) _ (fun _ => c)), sumR_const, (sumR_const0 (n - b)); try lia; [ring| | |].
  - intros i Hi. destruct (in_slice n a b _) eqn:E; [|reflexivity]. apply in_slice_iff in E; lia.
  - intros i Hi. destruct (in_slice n a b _) eqn:E; [reflexivity|]. exfalso. assert (Q : in_slice n a b (a + i) = true) by (apply in_slice_iff; lia). congruence.
  - intros i Hi. destruct (in_slice n a b _) eqn:E; [|reflexivity]. apply in_slice_iff in E; lia.
Qed.
Lemma sum_box w sh : (0 <= w)%Z -> Forall (fun n => (w <= n)%Z) sh -> sumNR sh (fun i => if in_box w sh i then 1 else 0) = IZR w ^ length sh.
Proof.
  intros Hw. induction sh as [|n sh IH]; intros Hf; [rewrite sumNR_nil; simpl; ring|]. inversion Hf as [|? ? Hn Hf']; subst. rewrite sumNR_cons. cbn [in_box length pow].
  rewrite (sumR_ext n _ (fun k => if in_slice n (n - (n + 1) / 2 - w / 2) (n - (n + 1) / 2 + (w + 1) / 2) k then IZR w ^ length sh else 0)).
  - rewrite sum_range by (Z.to_euclidean_division_equations; lia). f_equal. f_equal. Z.to_euclidean_division_equations; lia.
  - intros k Hk. destruct (in_slice n _ _ k); cbn [andb]; [apply IH; auto|]. apply sumNR_const0. reflexivity.
Qed.
(** numpy before 1.23 (a list of slices is an index) *)
Theorem C60_boxcar :
  forall sc sh w trap norm, sh <> [] -> (0 < w)%Z -> Forall (fun n => (w <= n)%Z) sh -> norm = NTrue \/ norm = NFun total ->
  exists k, make_kernel true sc sh (PInt w) KBoxcar trap norm false = Ok (amap XF k) /\ shape k = sh /\ total k = 1 /\
    forall i, inb sh i -> (in_centred_box w sh i -> get k i = / IZR w ^ length sh) /\ (~ in_centred_box w sh i -> get k i = 0).
Proof.
  intros sc sh w trap norm Hne Hw Hf Hnorm. unfold make_kernel. destruct sh as [|n0 sh0]; [congruence|]. set (sh := n0 :: sh0) in *.
  assert (Hp : pos_shape sh) by (apply Forall_forall; intros n Hn; rewrite Forall_forall in Hf; specialize (Hf n Hn); lia).
  rewrite (shape_check_ok true sh Hp). cbn [bind negb]. set (k0 := Arr sh _).
  assert (En : match norm with NTrue => np_sum | NFun f => f end k0 = np_sum k0) by (destruct Hnorm as [-> | ->]; reflexivity). rewrite En. clear En.
  assert (S : np_sum k0 = IZR w ^ length sh) by (apply sum_box; auto; lia).
  assert (P : 0 < IZR w ^ length sh) by (apply pow_lt; apply (IZR_lt 0); lia).
  exists (Arr sh (fun i => get k0 i / np_sum k0)). rewrite divide_ok by lra. split; [reflexivity|]. split; [reflexivity|].
  split; [apply (normalised_total k0); [reflexivity|lra]|]. cbn [get]. intros i Hi. rewrite S. unfold k0. cbn [get].
  assert (B := in_box_iff w sh i ltac:(lia) Hf Hi). destruct (in_box w sh i) eqn:E.
  - split; intros Q; [field; lra|]. exfalso. apply Q, B. reflexivity.
  - split; intros Q; [apply B in Q; congruence|field; lra].
Qed.
Print Assumptions C60_boxcar.
(** numpy 1.23 and later: no boxcar kernel at all; float widths never work *)
Theorem C60_boxcar_on_current_numpy_refuted :
  forall sc sh w trap norm, sh <> [] -> pos_shape sh -> make_kernel false sc sh w KBoxcar trap norm false = Raise IndexError.
Proof.
  intros sc sh w trap norm Hne Hp. unfold make_kernel. destruct sh as [|n l]; [congruence|]. rewrite (shape_check_ok true (n :: l) Hp). reflexivity.
Qed.
Print Assumptions C60_boxcar_on_current_numpy_refuted.
Theorem C60_boxcar_float_width_raises :
  forall sc sh (w : R) trap norm, sh <> [] -> pos_shape sh -> make_kernel true sc sh (PFloat w) KBoxcar trap norm false = Raise TypeError.
Proof.
  intros sc sh w trap norm Hne Hp. unfold make_kernel. destruct sh as [|n l]; [congruence|]. rewrite (shape_check_ok true (n :: l) Hp). reflexivity.
Qed.
Print Assumptions C60_boxcar_float_width_raises.

(** *** C60: tophat *)
Theorem C60_tophat :
  forall lio sc sh w trap norm, sh <> [] -> pos_shape sh -> norm = NTrue \/ norm = NFun total ->
  (exists i, inb sh i /\ sqrt (dist2 (grid_middle sh) i) < pval w) ->
  exists k z, make_kernel lio sc sh w KTophat trap norm false = Ok (amap XF k) /\ shape k = sh /\ total k = 1 /\ 0 < z /\
    (forall i, inb sh i -> (sqrt (dist2 (grid_middle sh) i) < pval w -> get k i = z) /\ (~ sqrt (dist2 (grid_middle sh) i) < pval w -> get k i = 0)) /\
    (forall i, inb sh i -> inb sh (flip sh i) /\ get k (flip sh i) = get k i).
Proof.
  intros lio sc sh w trap norm Hne Hp Hnorm [i0 [Hi0 Hlt]]. unfold make_kernel. destruct sh as [|n0 sh0]; [congruence|]. set (sh := n0 :: sh0) in *.
  rewrite (shape_check_ok false sh Hp). cbn [bind]. set (k0 := Arr sh _).
  assert (En : match norm with NTrue => np_sum | NFun f => f end k0 = np_sum k0) by (destruct Hnorm as [-> | ->]; reflexivity). rewrite En. clear En.
  assert (G : forall i, get k0 i = if Rlt_dec (sqrt (dist2 (grid_middle sh) i)) (pval w) then 1 else 0) by (intros i; unfold k0; cbn [get]; rewrite radius2_mid; reflexivity).
  assert (P : 0 < np_sum k0).
  { unfold np_sum. apply Rlt_le_trans with (get k0 i0); [rewrite G; destruct (Rlt_dec _ _); lra|]. apply sumNR_term_le; [|exact Hi0]. intros i _. rewrite G. destruct (Rlt_dec _ _); lra. }
  exists (Arr sh (fun i => get k0 i / np_sum k0)), (/ np_sum k0). rewrite divide_ok by lra. split; [reflexivity|]. split; [reflexivity|].
  split; [apply (normalised_total k0); [reflexivity|lra]|]. cbn [get]. split; [apply Rinv_0_lt_compat; auto|]. split.
  - intros i Hi. rewrite G. destruct (Rlt_dec _ _); split; intros Q; try contradiction; unfold Rdiv; ring.
  - intros i Hi. split; [apply flip_inb; auto|]. rewrite !G, flip_dist2 by (apply (inb_length _ _ Hi)). reflexivity.
Qed.
Print Assumptions C60_tophat.

(** *** C60: trapezoid *)
Theorem C60_trapezoid :
  forall lio sc sh w slope norm, sh <> [] -> pos_shape sh -> slope <> 0 ->
  let r := fun i => sqrt (dist2 (grid_middle sh) i) in
  let rmax := r (map (fun _ => 0%Z) sh) in                            (* distance of the corner *)
  (exists i, inb sh i /\ r i < pval w) ->
  exists k z, make_kernel lio sc sh w KTrapezoid (Some slope) norm false = Ok (amap XF k) /\ shape k = sh /\ total k = 1 /\ 0 < z /\
    forall i, inb sh i -> get k i = z * (if Rlt_dec (r i) (pval w) then 1 else Rmax 0 (rmax - r i * slope)).
Proof.
  intros lio sc sh w slope norm Hne Hp Hs r rmax [i0 [Hi0 Hlt]]. unfold make_kernel. destruct sh as [|n0 sh0]; [congruence|]. set (sh := n0 :: sh0) in *.
  rewrite (shape_check_ok false sh Hp). cbn [bind]. destruct (Req_EM_T slope 0) as [|_]; [contradiction|]. set (k0 := Arr sh _).
  assert (M : maxN sh (fun i => sqrt (radius2 mid_centre sh i)) = rmax).
  { unfold rmax, r. rewrite <- radius2_mid. apply maxN_corner; auto. }
  assert (G : forall i, get k0 i = if Rlt_dec (r i) (pval w) then 1 else Rmax 0 (rmax - r i * slope)).
  { intros i. unfold k0. cbn [get]. rewrite M, radius2_mid. fold (r i). destruct (Rlt_dec (r i) (pval w)); [reflexivity|].
    destruct (Rlt_dec _ 0); [rewrite Rmax_left; lra|rewrite Rmax_right; lra]. }
  assert (N : forall i, 0 <= get k0 i) by (intros i; rewrite G; destruct (Rlt_dec _ _); [lra|apply Rmax_l]).
  assert (P : 0 < np_sum k0).
  { unfold np_sum. apply Rlt_le_trans with (get k0 i0); [rewrite G; fold (r i0) in Hlt; destruct (Rlt_dec _ _); [lra|contradiction]|]. apply sumNR_term_le; auto. }
  exists (Arr sh (fun i => get k0 i / np_sum k0)), (/ np_sum k0). rewrite divide_ok by lra. split; [reflexivity|]. split; [reflexivity|].
  split; [apply (normalised_total k0); [reflexivity|lra]|]. cbn [get]. split; [apply Rinv_0_lt_compat; auto|].
  intros i Hi. rewrite G. unfold Rdiv. ring.
Qed.
Print Assumptions C60_trapezoid.

(** *** C60: odd shapes and errors *)
Theorem C60_force_odd :
  forall lio sc sh w t trap norm k, make_kernel lio sc sh w t trap norm true = Ok k ->
  length (shape k) = length sh /\ forall d, (d < length sh)%nat ->
    Z.odd (nth d (shape k) 0%Z) = true /\ (nth d (shape k) 0 = nth d sh 0 \/ nth d (shape k) 0 = nth d sh 0 - 1)%Z.
Proof.
  intros lio sc sh w t trap norm k. unfold make_kernel. set (sh' := map _ sh). intros H.
  assert (E : shape k = sh').
  { destruct sh' as [|n l]; [discriminate|]. destruct t; cbn [bind] in H.
    - destruct (shape_check false (n :: l)); cbn [bind] in H; [|discriminate]. destruct (Req_EM_T _ 0); injection H as <-; reflexivity.
    - destruct (shape_check true (n :: l)); cbn [bind] in H; [|discriminate]. destruct lio; [|discriminate]. cbn [negb] in H. destruct w; [|discriminate]. injection H as <-; reflexivity.
    - destruct (shape_check false (n :: l)); cbn [bind] in H; [|discriminate]. injection H as <-; reflexivity.
    - destruct sc; [|discriminate]. destruct (shape_check false (n :: l)); discriminate.
    - destruct (shape_check false (n :: l)); cbn [bind] in H; [|discriminate]. destruct trap; [|discriminate]. destruct (Req_EM_T _ 0); [discriminate|]. injection H as <-; reflexivity.
    - discriminate. }
  rewrite E. unfold sh'. rewrite map_length. split; [reflexivity|]. intros d Hd. set (oddf := fun n => if (n mod 2 =? 0)%Z then (n - 1)%Z else n).
  rewrite (nth_indep (map oddf sh) 0%Z (oddf 0%Z)) by (rewrite map_length; auto). rewrite (map_nth oddf sh 0%Z d). unfold oddf.
  set (n := nth d sh 0%Z). destruct (Z.eqb_spec (n mod 2) 0) as [Q|Q]; (split; [|auto]); rewrite Zodd_mod; apply Zeq_is_eq_bool; Z.to_euclidean_division_equations; lia.
Qed.
Print Assumptions C60_force_odd.
Theorem C60_errors :
  forall lio sc sh w trap norm, sh <> [] -> pos_shape sh ->
  make_kernel lio sc sh w KOther trap norm false = Raise UnboundLocalError /\
  make_kernel lio sc sh w KAiry trap norm false = Raise (if sc then NameError else ImportError) /\
  make_kernel lio sc sh w KTrapezoid None norm false = Raise ValueError /\
  make_kernel lio sc sh w KTrapezoid (Some 0) norm false = Raise ValueError.
Proof.
  intros lio sc sh w trap norm Hne Hp. unfold make_kernel. destruct sh as [|n l]; [congruence|]. rewrite (shape_check_ok false (n :: l) Hp). cbn [bind].
  split; [reflexivity|]. split; [destruct sc; reflexivity|]. split; [reflexivity|]. destruct (Req_EM_T 0 0); [reflexivity|congruence].
Qed.
Print Assumptions C60_errors.
Example C60_nonvacuous : pos_shape [5; 4]%Z /\ Forall (fun n => (3 <= n)%Z) [5; 4]%Z /\ pval (PInt 3) <> 0 /\
  exists i, inb [5; 4]%Z i /\ sqrt (dist2 (grid_middle [5; 4]%Z) i) < pval (PInt 3).
Proof.
  split; [repeat constructor; lia|]. split; [repeat constructor; lia|]. split; [cbn; lra|]. exists [2; 1]%Z. split; [cbn; lia|].
  cbn [grid_middle map dist2 pval]. replace ((2 - (5 - 1) / 2) ^ 2 + ((1 - (4 - 1) / 2) ^ 2 + 0)) with ((1/2)*(1/2)) by field. rewrite sqrt_square by lra. lra.
Qed.

(** *** C61: kernels centred on the FFT origin *)
(** true for the gaussian (C60_gaussian), for tophats on odd sizes and for boxcars of odd width *)
Theorem C61_tophat_odd_sizes :
  forall lio sc sh w trap norm k, sh <> [] -> pos_shape sh -> Forall (fun n => Z.odd n = true) sh -> norm = NTrue \/ norm = NFun total ->
  (exists i, inb sh i /\ sqrt (dist2 (grid_middle sh) i) < pval w) ->
  make_kernel lio sc sh w KTophat trap norm false = Ok (amap XF k) -> symmetric_about k (fft_origin sh).
Proof.
  intros lio sc sh w trap norm k Hne Hp Ho Hnorm Hex H. destruct (C60_tophat lio sc sh w trap norm Hne Hp Hnorm Hex) as [k' [z [E [Es [_ [_ [_ F]]]]]]].
  rewrite E in H. injection H as E1 E2. intros i Hi _. assert (Eg : forall j, get k j = get k' j).
  { intros j. assert (Q := f_equal (fun g => g j) E2). cbv beta in Q. congruence. }
  rewrite !Eg. rewrite <- E1, Es in Hi. rewrite odd_reflect by auto. apply F. exact Hi.
Qed.
Print Assumptions C61_tophat_odd_sizes.
Theorem C61_boxcar_odd_width :
  forall sc sh w trap norm k, sh <> [] -> (0 < w)%Z -> Z.odd w = true -> Forall (fun n => (w <= n)%Z) sh -> norm = NTrue \/ norm = NFun total ->
  make_kernel true sc sh (PInt w) KBoxcar trap norm false = Ok (amap XF k) -> symmetric_about k (fft_origin sh).
Proof.
  intros sc sh w trap norm k Hne Hw Ho Hf Hnorm H. destruct (C60_boxcar sc sh w trap norm Hne Hw Hf Hnorm) as [k' [E [Es [_ F]]]].
  rewrite E in H. injection H as E1 E2. intros i Hi Hr. assert (Eg : forall j, get k j = get k' j).
  { intros j. assert (Q := f_equal (fun g => g j) E2). cbv beta in Q. congruence. }
  rewrite !Eg. rewrite <- E1, Es in Hi, Hr. assert (B := box_reflect w sh i Ho Hi).
  destruct (Classical_Prop.classic (in_centred_box w sh i)) as [Q|Q].
  - rewrite (proj1 (F i Hi) Q), (proj1 (F _ Hr) (proj2 B Q)). reflexivity.
  - rewrite (proj2 (F i Hi) Q), (proj2 (F _ Hr)) by tauto. reflexivity.
Qed.
Print Assumptions C61_boxcar_odd_width.

Lemma sumNR_4 f : sumNR [4%Z] f = f [0%Z] + f [1%Z] + f [2%Z] + f [3%Z].
Proof. rewrite sumNR_cons. replace 4%Z with (0 + 1 + 1 + 1 + 1)%Z by lia. rewrite !sumR_S, sumR_0 by lia. rewrite !sumNR_nil. simpl. ring. Qed.
(** false for a tophat on an even size: radius 1 on 4 pixels covers pixels 1 and 2, the origin is pixel 2 *)
Theorem C61_tophat_even_size_refuted :
  exists k, (forall lio sc trap, make_kernel lio sc [4%Z] (PInt 1) KTophat trap NTrue false = Ok (amap XF k)) /\
    g1 k 1 = 1/2 /\ g1 k 2 = 1/2 /\ g1 k 3 = 0 /\ ~ symmetric_about k (fft_origin [4%Z]).
Proof.
  assert (R : forall j, sqrt (radius2 mid_centre [4%Z] [j]) = Rabs (IZR j - 3/2)).
  { intros j. cbn [radius2]. unfold mid_centre. rewrite Rplus_0_r. change (4 - 1)%Z with 3%Z. rewrite <- sqrt_Rsqr_abs. f_equal. unfold Rsqr. ring. }
  set (f := fun i => if Rlt_dec (sqrt (radius2 mid_centre [4%Z] i)) (pval (PInt 1)) then 1 else 0).
  assert (F0 : f [0%Z] = 0) by (unfold f; rewrite R; cbn [pval]; rewrite Rabs_left by lra; destruct (Rlt_dec _ _); [exfalso; lra|reflexivity]).
  assert (F1 : f [1%Z] = 1) by (unfold f; rewrite R; cbn [pval]; rewrite Rabs_left by lra; destruct (Rlt_dec _ _); [reflexivity|exfalso; lra]).
  assert (F2 : f [2%Z] = 1) by (unfold f; rewrite R; cbn [pval]; rewrite Rabs_right by lra; destruct (Rlt_dec _ _); [reflexivity|exfalso; lra]).
  assert (F3 : f [3%Z] = 0) by (unfold f; rewrite R; cbn [pval]; rewrite Rabs_right by lra; destruct (Rlt_dec _ _); [exfalso; lra|reflexivity]).
  assert (S : np_sum (Arr [4%Z] f) = 2) by (unfold np_sum; cbn [shape get]; rewrite sumNR_4, F0, F1, F2, F3; ring).
  exists (Arr [4%Z] (fun i => f i / 2)). split.
  - intros lio sc trap. unfold make_kernel. rewrite (shape_check_ok false [4%Z]) by (repeat constructor; lia). cbn [bind]. fold f. rewrite S. rewrite divide_ok by lra. reflexivity.
  - unfold g1. cbn [get]. rewrite F1, F2, F3. split; [lra|]. split; [lra|]. split; [lra|]. intros H. specialize (H [1%Z] ltac:(cbn; lia) ltac:(cbn; lia)).
    cbn [get fft_origin map reflect zipw] in H. change (2 * (4 / 2) - 1)%Z with 3%Z in H. rewrite F1, F3 in H. lra.
Qed.
Print Assumptions C61_tophat_even_size_refuted.
(** false for a boxcar of even width, and a boxcar wider than the shape wraps its start index: width 6 on 4 pixels is all on the last pixel *)
Theorem C61_boxcar_refuted :
  (exists k, (forall sc trap, make_kernel true sc [4%Z] (PInt 2) KBoxcar trap NTrue false = Ok (amap XF k)) /\
    g1 k 1 = 1/2 /\ g1 k 2 = 1/2 /\ g1 k 3 = 0 /\ ~ symmetric_about k (fft_origin [4%Z])) /\
  (exists k, (forall sc trap, make_kernel true sc [4%Z] (PInt 6) KBoxcar trap NTrue false = Ok (amap XF k)) /\
    g1 k 0 = 0 /\ g1 k 1 = 0 /\ g1 k 2 = 0 /\ g1 k 3 = 1).
Proof.
  split.
  - set (f := fun i => if in_box 2 [4%Z] i then 1 else 0).
    assert (S : np_sum (Arr [4%Z] f) = 2) by (unfold np_sum; cbn [shape get]; rewrite sumNR_4; unfold f; cbn; ring).
    exists (Arr [4%Z] (fun i => f i / 2)). split.
    + intros sc trap. unfold make_kernel. rewrite (shape_check_ok true [4%Z]) by (repeat constructor; lia). cbn [bind negb]. fold f. rewrite S. rewrite divide_ok by lra. reflexivity.
    + unfold g1, f. cbn [get]. cbn. split; [lra|]. split; [lra|]. split; [lra|]. intros H. specialize (H [1%Z] ltac:(cbn; lia) ltac:(cbn; lia)). cbn in H. lra.
  - set (f := fun i => if in_box 6 [4%Z] i then 1 else 0).
    assert (S : np_sum (Arr [4%Z] f) = 1) by (unfold np_sum; cbn [shape get]; rewrite sumNR_4; unfold f; cbn; ring).
    exists (Arr [4%Z] (fun i => f i / 1)). split.
    + intros sc trap. unfold make_kernel. rewrite (shape_check_ok true [4%Z]) by (repeat constructor; lia). cbn [bind negb]. fold f. rewrite S. rewrite divide_ok by lra. reflexivity.
    + unfold g1, f. cbn [get]. cbn. repeat split; lra.
Qed.
Print Assumptions C61_boxcar_refuted.

(** *** C62: smooth never returns *)
Theorem C62_smooth_always_raises_refuted :
  forall (A : Type) lio sc image_shape w t trap nwidths min_nwidths norm,
  exists e, smooth (A := A) lio sc image_shape w t trap nwidths min_nwidths norm = Raise e.
Proof.
  intros A lio sc sh w t trap nw mn norm. unfold smooth. destruct sh as [|s0 rest]; [eauto|].
  destruct (Rlt_dec _ _); cbn [bind]; [eauto|]. destruct rest as [|s1 rest]; cbn [bind]; [eauto|].
  destruct (Rlt_dec _ _); cbn [bind]; [eauto|]. destruct nw; [eauto|]. destruct rest; [|eauto]. destruct (make_kernel _ _ _ _ _ _ _ _); cbn [bind]; eauto.
Qed.
Print Assumptions C62_smooth_always_raises_refuted.
(** in the documented use (a 2-D image at least six widths across, gaussian) the exception is AttributeError: dict.has_key *)
Theorem C62_smooth_default_call :
  forall (A : Type) lio sc ny nx w, (0 < ny)%Z -> (0 < nx)%Z -> 0 < pval w -> pval w * 6 <= IZR ny -> pval w * 6 <= IZR nx ->
  smooth (A := A) lio sc [ny; nx] w KGaussian None None 6 (NFun total) = Raise AttributeError.
Proof.
  intros A lio sc ny nx w Hy Hx Hw H1 H2. unfold smooth. destruct (Rlt_dec _ _); [lra|]. cbn [bind]. destruct (Rlt_dec _ _); [lra|].
  destruct (C60_gaussian lio sc [(ny + ny mod 2); (nx + nx mod 2)]%Z w None (NFun total)) as [k [E _]]; auto; [discriminate| |lra|].
  - assert (Q1 := Z.mod_pos_bound ny 2 ltac:(lia)). assert (Q2 := Z.mod_pos_bound nx 2 ltac:(lia)). repeat constructor; lia.
  - rewrite E. reflexivity.
Qed.
Print Assumptions C62_smooth_default_call.

(** exactly which exception [smooth] raises *)
Theorem C62_which_exception :
  forall (A : Type) lio sc image_shape w t trap nwidths min_nwidths norm,
  let call := smooth (A := A) lio sc image_shape w t trap nwidths min_nwidths norm in
  let small := fun n => IZR n < pval w * min_nwidths in
  match image_shape with
  | [] => call = Raise IndexError
  | s0 :: rest =>
    (small s0 -> call = Raise TypeError) /\
    (~ small s0 -> rest = [] -> call = Raise IndexError) /\
    (forall s1 rest', ~ small s0 -> rest = s1 :: rest' ->
       (small s1 -> call = Raise TypeError) /\
       (nwidths <> None -> call = Raise TypeError) /\
       (~ small s1 -> nwidths = None -> rest' <> [] -> call = Raise ValueError) /\
       (~ small s1 -> nwidths = None -> rest' = [] ->
        match make_kernel lio sc [s0 + s0 mod 2; s1 + s1 mod 2]%Z w t trap norm false with
        | Ok _ => call = Raise AttributeError
        | Raise e => call = Raise e
        end))
  end.
Proof.
  intros A lio sc sh w t trap nw mn norm call small. subst call. destruct sh as [|s0 rest]; [reflexivity|]. unfold smooth.
  split; [|split].
  - intros H. destruct (Rlt_dec _ _); [reflexivity|tauto].
  - intros H ->. destruct (Rlt_dec _ _); [tauto|reflexivity].
  - intros s1 rest' H ->. destruct (Rlt_dec _ _) as [Q|_]; [tauto|]. cbn [bind]. split; [|split; [|split]].
    + intros H1. destruct (Rlt_dec _ _); [reflexivity|tauto].
    + intros Hn. destruct (Rlt_dec _ _); [reflexivity|]. destruct nw; [reflexivity|tauto].
    + intros H1 -> Hr. destruct (Rlt_dec _ _); [tauto|]. destruct rest'; [tauto|reflexivity].
    + intros H1 -> ->. destruct (Rlt_dec _ _); [tauto|]. destruct (make_kernel _ _ _ _ _ _ _ _); reflexivity.
Qed.
Print Assumptions C62_which_exception.
