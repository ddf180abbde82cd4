(** Propagation of rounding errors through sums, products and quotients of pixels; used by P_rounding3 *)
From Coq Require Import ZArith Lia List Reals Lra Bool.
From Coquelicot Require Import Complex.
From Verif Require Import Base NDim DFT Kernel Num Py Sum2 M_fast_ffts M_shift M_scale M_zoom M_upsample M_convolve M_correlate Arg M_chi2 M_xcorr M_register M_rounding M_rounding2 M_rounding3
  Spec L_shift L_scale L_upsample L_convolve Spec2 Spec3 Spec4 L_correlate L_chi2 L_chi2shift L_xcorr P_chi2map P_rounding L_iterzoom2.
Import ListNotations.
Open Scope R_scope.

(** x' is off from x by at most M (p - 1), where M bounds |x| *)
Definition near (p M x' x : R) : Prop := 1 <= p /\ Rabs (x' - x) <= M * (p - 1) /\ Rabs x <= M.

Lemma near_M p M x' x : near p M x' x -> 0 <= M.
Proof. intros [_ [_ H]]. assert (Q := Rabs_pos x). lra. Qed.
Lemma near_abs p M x' x : near p M x' x -> Rabs x' <= M * p.
Proof. intros [H1 [H2 H3]]. replace x' with ((x' - x) + x) by ring. refine (Rle_trans _ _ _ (Rabs_triang _ _) _). lra. Qed.
Lemma near_refl p M x : 1 <= p -> Rabs x <= M -> near p M x x.
Proof. intros Hp H. split; [auto|]. split; [|auto]. replace (x - x) with 0 by ring. rewrite Rabs_R0. assert (Q := Rabs_pos x). apply Rmult_le_pos; lra. Qed.
Lemma near_weaken p q M x' x : near p M x' x -> p <= q -> near q M x' x.
Proof. intros H Hq. assert (HM := near_M _ _ _ _ H). destruct H as [H1 [H2 H3]]. split; [lra|]. split; [|auto]. refine (Rle_trans _ _ _ H2 _). apply Rmult_le_compat_l; lra. Qed.
Lemma near_eq p q M N x' x : near p M x' x -> p = q -> M = N -> near q N x' x.
Proof. intros H <- <-. exact H. Qed.
Lemma near_add p M N x' x y' y : near p M x' x -> near p N y' y -> near p (M + N) (x' + y') (x + y).
Proof.
  intros [H1 [H2 H3]] [K1 [K2 K3]]. split; [auto|]. split.
  - replace (x' + y' - (x + y)) with ((x' - x) + (y' - y)) by ring. refine (Rle_trans _ _ _ (Rabs_triang _ _) _). lra.
  - refine (Rle_trans _ _ _ (Rabs_triang _ _) _). lra.
Qed.
Lemma near_opp p M x' x : near p M x' x -> near p M (- x') (- x).
Proof. intros [H1 [H2 H3]]. split; [auto|]. split; [|rewrite Rabs_Ropp; auto]. replace (- x' - - x) with (- (x' - x)) by ring. rewrite Rabs_Ropp. auto. Qed.
Lemma near_mul p q M N x' x y' y : near p M x' x -> near q N y' y -> near (p * q) (M * N) (x' * y') (x * y).
Proof.
  intros H K. assert (HM := near_M _ _ _ _ H). assert (KM := near_M _ _ _ _ K). assert (A := near_abs _ _ _ _ H).
  destruct H as [H1 [H2 H3]], K as [K1 [K2 K3]]. split; [|split].
  - replace 1 with (1 * 1) by ring. apply Rmult_le_compat; lra.
  - replace (x' * y' - x * y) with (x' * (y' - y) + (x' - x) * y) by ring. refine (Rle_trans _ _ _ (Rabs_triang _ _) _). rewrite !Rabs_mult.
    assert (Q1 : Rabs x' * Rabs (y' - y) <= M * p * (N * (q - 1))) by (apply Rmult_le_compat; auto using Rabs_pos).
    assert (Q2 : Rabs (x' - x) * Rabs y <= M * (p - 1) * N) by (apply Rmult_le_compat; auto using Rabs_pos).
    replace (M * N * (p * q - 1)) with (M * p * (N * (q - 1)) + M * (p - 1) * N) by ring. lra.
  - rewrite Rabs_mult. apply Rmult_le_compat; auto using Rabs_pos.
Qed.
Lemma near_scal p M c x' x : near p M x' x -> near p (Rabs c * M) (c * x') (c * x).
Proof.
  intros [H1 [H2 H3]]. split; [auto|]. split.
  - replace (c * x' - c * x) with (c * (x' - x)) by ring. rewrite Rabs_mult. replace (Rabs c * M * (p - 1)) with (Rabs c * (M * (p - 1))) by ring. apply Rmult_le_compat_l; auto using Rabs_pos.
  - rewrite Rabs_mult. apply Rmult_le_compat_l; auto using Rabs_pos.
Qed.
Lemma near_sumR n p (M x' x : Z -> R) : 1 <= p -> (forall k, (0 <= k < n)%Z -> near p (M k) (x' k) (x k)) -> near p (sumR n M) (sumR n x') (sumR n x).
Proof.
  intros Hp. revert n. apply (sumG_ind (fun n => (forall k, (0 <= k < n)%Z -> near p (M k) (x' k) (x k)) -> near p (sumR n M) (sumR n x') (sumR n x))).
  - intros n Hn _. rewrite !sumR_0 by auto. apply near_refl; [auto|rewrite Rabs_R0; lra].
  - intros n Hn IH H. rewrite !sumR_S by auto. apply near_add; [apply IH; intros; apply H; lia|apply H; lia].
Qed.
Lemma near_sum2 ny nx p (M x' x : Z -> Z -> R) : 1 <= p -> (forall k l, (0 <= k < ny)%Z -> (0 <= l < nx)%Z -> near p (M k l) (x' k l) (x k l)) ->
  near p (sum2 ny nx M) (sum2 ny nx x') (sum2 ny nx x).
Proof. intros Hp H. unfold sum2. apply near_sumR; auto. intros k Hk. apply near_sumR; auto. Qed.

(** operations on pixel values: each rounds within a factor 1 +- eps, sums of up to n values are off by at most eps times
    the sum of the moduli *)
Definition accurate_scalar (eps : R) (n : nat) (S : sarith) : Prop :=
  0 <= eps /\ (forall x, Rabs (sa_rd S x - x) <= eps * Rabs x) /\
  forall l, (length l <= n)%nat -> Rabs (sa_sum S l - fold_right Rplus 0 l) <= eps * fold_right Rplus 0 (map Rabs l).

Section Ops.
Variables (eps : R) (n : nat) (S : sarith).
Hypothesis HS : accurate_scalar eps n S.
Let e0 : 0 <= eps. Proof. exact (proj1 HS). Qed.

Lemma near_rd p M x' x : near p M x' x -> near ((1 + eps) * p) M (sa_rd S x') x.
Proof.
  intros H. assert (A := near_abs _ _ _ _ H). assert (HM := near_M _ _ _ _ H). destruct H as [H1 [H2 H3]]. assert (Q := proj1 (proj2 HS) x').
  assert (E := Rmult_le_pos _ _ e0 (Rle_trans _ _ _ Rle_0_1 H1)).
  split; [|split; [|auto]].
  - replace ((1 + eps) * p) with (p + eps * p) by ring. lra.
  - replace (sa_rd S x' - x) with ((sa_rd S x' - x') + (x' - x)) by ring. refine (Rle_trans _ _ _ (Rabs_triang _ _) _).
    assert (Q2 := Rmult_le_compat_l eps _ _ e0 A). replace (M * ((1 + eps) * p - 1)) with (eps * (M * p) + M * (p - 1)) by ring. lra.
Qed.
(** division by the rounded square of an error *)
Lemma near_div p M x' x s : eps <= 1 / 2 -> s <> 0 -> near p M x' x -> near ((1 + eps) ^ 2 * p) (M / s ^ 2) (x' / sa_rd S (s ^ 2)) (x / s ^ 2).
Proof.
  intros He Hs H. assert (P : 0 < s ^ 2) by (assert (Q := pow2_ge_0 s); assert (s ^ 2 <> 0) by (apply pow_nonzero; auto); lra).
  set (v := s ^ 2) in *. assert (Q := proj1 (proj2 HS) v). rewrite (Rabs_right v) in Q by lra. set (w := sa_rd S v) in *.
  assert (Q0 := Rmult_le_compat_r v _ _ ltac:(lra) He).
  apply Rcomplements.Rabs_le_between in Q. assert (W : 0 < w) by lra.
  unfold Rdiv. rewrite Rmult_comm. rewrite (Rmult_comm x'), (Rmult_comm x). rewrite (Rmult_comm (M)). rewrite (Rmult_comm p).
  apply (near_mul ((1 + eps) ^ 2) p (/ v) M); auto.
  assert (IV : 0 < / v) by (apply Rinv_0_lt_compat; auto). assert (IW : 0 < / w) by (apply Rinv_0_lt_compat; auto).
  split; [|split].
  - replace ((1 + eps) ^ 2) with (1 + (2 * eps + eps ^ 2)) by ring. assert (0 <= eps ^ 2) by apply pow2_ge_0. lra.
  - replace (/ w - / v) with ((v - w) * / w * / v) by (field; lra). rewrite Rabs_mult, Rabs_mult, (Rabs_right (/ v)), (Rabs_right (/ w)) by lra.
    rewrite (Rmult_comm _ (/ v)). apply Rmult_le_compat_l; [lra|].
    apply (Rmult_le_reg_r w); auto. rewrite Rmult_assoc, Rinv_l, Rmult_1_r by lra.
    assert (A1 : Rabs (v - w) <= eps * v) by (apply Rabs_le; lra).
    refine (Rle_trans _ _ _ A1 _). replace ((1 + eps) ^ 2 - 1) with (eps * (2 + eps)) by ring. rewrite Rmult_assoc. apply Rmult_le_compat_l; auto.
    assert (A2 : (1 - eps) * v <= w) by lra.
    assert (A3 := Rmult_le_compat_l (2 + eps) _ _ ltac:(lra) A2). refine (Rle_trans _ _ _ _ A3).
    replace ((2 + eps) * ((1 - eps) * v)) with (v + v * (1 - eps - eps * eps)) by ring.
    assert (eps * eps <= 1 / 2 * (1 / 2)) by (apply Rmult_le_compat; lra). assert (0 <= v * (1 - eps - eps * eps)) by (apply Rmult_le_pos; lra). lra.
  - rewrite Rabs_right by lra. lra.
Qed.
Lemma map_values sh (f : list Z -> R) (g : R -> R) : map g (values sh f) = values sh (fun i => g (f i)).
Proof. unfold values. apply map_map. Qed.
Lemma all_indices_length sh : pos_shape sh -> length (all_indices sh) = Z.to_nat (prodZ sh).
Proof.
  induction sh as [|m sh IH]; intros Hp; [reflexivity|]. apply pos_shape_cons in Hp. destruct Hp as [Hm Hs]. specialize (IH Hs). assert (P := prodZ_pos sh Hs).
  cbn [all_indices prodZ fold_right]. change (prodZ (m :: sh)) with (m * prodZ sh)%Z.
  rewrite Z2Nat.inj_mul by lia. generalize (Z.to_nat m). intros k. rewrite <- IH. clear. induction k as [|k IHk]; [reflexivity|].
  rewrite seq_S, flat_map_app, app_length, IHk. cbn [Nat.add flat_map]. rewrite app_nil_r, map_length. lia.
Qed.
Lemma near_values sh p (M f' f : list Z -> R) : 1 <= p -> pos_shape sh -> (Z.to_nat (prodZ sh) <= n)%nat ->
  (forall i, inb sh i -> near p (M i) (f' i) (f i)) -> near ((1 + eps) * p) (sumNR sh M) (sa_sum S (values sh f')) (sumNR sh f).
Proof.
  intros Hp Hs Hn H.
  assert (Q := proj2 (proj2 HS) (values sh f')). unfold values at 1 in Q. rewrite map_length, all_indices_length in Q by auto. specialize (Q Hn).
  rewrite map_values, !sum_values in Q.
  assert (A1 : sumNR sh (fun i => Rabs (f' i)) <= sumNR sh M * p).
  { rewrite Rmult_comm, <- sumNR_scal. apply sumNR_le. intros i Hi. rewrite Rmult_comm. apply (near_abs _ _ _ (f i)). auto. }
  assert (A2 : Rabs (sumNR sh f' - sumNR sh f) <= sumNR sh M * (p - 1)).
  { rewrite <- sumNR_minus, Rmult_comm, <- sumNR_scal. refine (Rle_trans _ _ _ (sumNR_abs _ _) _). apply sumNR_le. intros i Hi. rewrite Rmult_comm. apply (H i Hi). }
  assert (A3 : Rabs (sumNR sh f) <= sumNR sh M).
  { refine (Rle_trans _ _ _ (sumNR_abs _ _) _). apply sumNR_le. intros i Hi. apply (H i Hi). }
  assert (Q2 := Rmult_le_compat_l eps _ _ e0 A1). assert (E := Rmult_le_pos _ _ e0 (Rle_trans _ _ _ Rle_0_1 Hp)).
  split; [|split; auto].
  - replace ((1 + eps) * p) with (p + eps * p) by ring. lra.
  - replace (sa_sum S (values sh f') - sumNR sh f) with ((sa_sum S (values sh f') - sumNR sh f') + (sumNR sh f' - sumNR sh f)) by ring.
    refine (Rle_trans _ _ _ (Rabs_triang _ _) _). replace (sumNR sh M * ((1 + eps) * p - 1)) with (eps * (sumNR sh M * p) + sumNR sh M * (p - 1)) by ring. lra.
Qed.

(** the mean of the valid pixels and the image without it *)
Definition abs_mean (a : arr num) (ny nx : Z) : R := pixel_sum ny nx (fun i j => Rabs (px a i j)) / valid_count a ny nx.
(** size of the numbers entering pixel (i,j) of the image the code goes on with *)
Definition weight (zeromean : bool) (a : arr num) (ny nx i j : Z) : R :=
  match get a [i; j] with NaN => 0 | Fin r => Rabs r + (if zeromean then abs_mean a ny nx else 0) end.
Lemma abs_valid a ny nx : shape a = [ny; nx] -> fold_right Rplus 0 (map Rabs (valid_values a)) = pixel_sum ny nx (fun i j => Rabs (px a i j)).
Proof.
  intros Ha. assert (E : map Rabs (valid_values a) = flat_map (fun i => match get a i with Fin r => [Rabs r] | NaN => [] end) (all_indices (shape a))).
  { unfold valid_values. induction (all_indices (shape a)) as [|i l IH]; [reflexivity|]. cbn [flat_map]. rewrite map_app, IH. destruct (get a i); reflexivity. }
  rewrite E, fold_indices, Ha, sum2_sumNR. apply sum2_ext. intros i j _ _. unfold px. destruct (get a [i; j]); cbn; [ring|]. rewrite Rabs_R0. reflexivity.
Qed.
Lemma valid_length a ny nx : shape a = [ny; nx] -> (0 < ny)%Z -> (0 < nx)%Z -> (length (valid_values a) <= Z.to_nat (ny * nx))%nat.
Proof.
  intros Ha Hy Hx. assert (L := all_indices_length [ny; nx] (pos2 ny nx Hy Hx)). cbn [prodZ fold_right] in L. rewrite Z.mul_1_r in L. rewrite <- L, <- Ha. unfold valid_values.
  induction (all_indices (shape a)) as [|i l IH]; [cbn; lia|]. cbn [flat_map length]. rewrite app_length. destruct (get a i); cbn [length]; lia.
Qed.
Lemma valid_count_R a ny nx : shape a = [ny; nx] -> INR (length (valid_values a)) = valid_count a ny nx.
Proof. intros Ha. rewrite count_valid, Ha, sum2_sumNR. apply sum2_ext. intros i j _ _. destruct (get a [i; j]); reflexivity. Qed.
Lemma near_zero_mean zm (a : arr num) ny nx i j : shape a = [ny; nx] -> (0 < ny)%Z -> (0 < nx)%Z -> (Z.to_nat (ny * nx) <= n)%nat ->
  (0 <= i < ny)%Z -> (0 <= j < nx)%Z ->
  near ((1 + eps) ^ 3) (weight zm a ny nx i j) (nan0 (get (zero_mean_rd S zm a) [i; j])) (prep zm a ny nx i j).
Proof.
  intros Ha Hy Hx Hn Hi Hj. assert (P3 : 1 <= (1 + eps) ^ 3) by (apply pow_R1_Rle; lra).
  unfold weight, prep, zero_mean_rd. destruct zm.
  - cbn [amap get]. assert (VL := valid_length a ny nx Ha Hy Hx). assert (VC := valid_count_R a ny nx Ha). assert (VA := abs_valid a ny nx Ha).
    assert (VS := sum_valid a). rewrite Ha, sum2_sumNR in VS.
    assert (PE : sum2 ny nx (fun i j => nan0 (get a [i; j])) = pixel_sum ny nx (px a)) by (apply sum2_ext; intros; unfold px; destruct (get a _); reflexivity).
    rewrite PE in VS. unfold valid_mean_rd.
    assert (Q := proj2 (proj2 HS) (valid_values a) ltac:(lia)). rewrite VA, VS in Q.
    destruct (get a [i; j]) as [r|] eqn:Er; [|destruct (match valid_values a with [] => _ | _ => _ end); cbn; apply near_refl; auto; rewrite Rabs_R0; lra].
    destruct (valid_values a) as [|v l] eqn:Ev.
    { exfalso. cbn [length INR] in VC.
      assert (G := sum2_nonneg_0 ny nx (fun i j => match get a [i; j] with Fin _ => 1 | NaN => 0 end) ltac:(intros p q Hp Hq; cbv beta; destruct (get a [p; q]); lra) (eq_sym VC) i j Hi Hj). cbv beta in G. rewrite Er in G. lra. }
    rewrite <- Ev in *. assert (C0 : 0 < valid_count a ny nx) by (rewrite <- VC; apply lt_0_INR; rewrite Ev; cbn; lia).
    rewrite VC. cbn [num_sub_rd nan0].
    assert (M1 : near (1 + eps) (pixel_sum ny nx (fun i j => Rabs (px a i j))) (sa_sum S (valid_values a)) (pixel_sum ny nx (px a))).
    { split; [lra|]. split; [lra|]. unfold pixel_sum. refine (Rle_trans _ _ _ (sumR_abs _ _) _). apply sumR_le. intros p Hp. apply sumR_abs. }
    assert (IC : Rabs (/ valid_count a ny nx) = / valid_count a ny nx) by (apply Rabs_right; left; apply Rinv_0_lt_compat; auto).
    assert (M2 := near_scal _ _ (/ valid_count a ny nx) _ _ M1). rewrite IC in M2.
    assert (M3 := near_rd _ _ _ _ M2).
    assert (M4 : near ((1 + eps) * (1 + eps)) (Rabs r + abs_mean a ny nx) (r - sa_rd S (sa_sum S (valid_values a) / valid_count a ny nx)) (r - pixel_sum ny nx (px a) / valid_count a ny nx)).
    { unfold Rminus. apply near_add; [apply near_refl; [apply (proj1 M3)|lra]|]. apply near_opp. unfold abs_mean, Rdiv. rewrite (Rmult_comm (pixel_sum _ _ _)), (Rmult_comm (sa_sum _ _)), (Rmult_comm (pixel_sum _ _ (px a))). exact M3. }
    apply near_rd in M4. eapply near_eq; [exact M4|ring|reflexivity].
  - destruct (get a [i; j]) as [r|]; apply near_refl; auto; cbn; try rewrite Rabs_R0; lra.
Qed.
End Ops.

(** correlations of images that are off themselves *)
Lemma near_corr A eps e (x' y' x y : list Z -> R) X Y p q huge ny nx :
  (0 < ny)%Z -> (0 < nx)%Z -> size_ok e huge ny nx -> accurate eps [ny; nx] A -> 1 <= p -> 1 <= q ->
  (forall i j, (0 <= i < ny)%Z -> (0 <= j < nx)%Z -> near p (X i j) (x' [i; j]) (x [i; j])) ->
  (forall i j, (0 <= i < ny)%Z -> (0 <= j < nx)%Z -> near q (Y i j) (y' [i; j]) (y [i; j])) ->
  exists c', correlate2d_with A (e_gb e) (fin_arr [ny; nx] x') (fin_arr [ny; nx] y') BWrap huge = Ok c' /\ shape c' = [ny; nx] /\
    forall k l, (0 <= k < ny)%Z -> (0 <= l < nx)%Z -> near (p * q * (1 + eps) ^ 4) (pixel_sum ny nx X * pixel_sum ny nx Y) (g2 c' k l)
      (sum2 ny nx (fun i j => y [i; j] * x [(i - ((ny - 1) / 2 - k)) mod ny; (j - ((nx - 1) / 2 - l)) mod nx]%Z)).
Proof.
  intros Hy Hx Hh HA Hp Hq NX NY. assert (e0 := proj1 HA).
  destruct (correlate2d_wrap (e_fftw e) (e_gb e) (fin_arr [ny; nx] x) (fin_arr [ny; nx] y) 1 true huge ny nx eq_refl eq_refl Hy Hx Hh) as [c [E [Sc V]]].
  destruct (correlate2d_wrap (e_fftw e) (e_gb e) (fin_arr [ny; nx] x') (fin_arr [ny; nx] y') 1 true huge ny nx eq_refl eq_refl Hy Hx Hh) as [d [Ed [Sd W]]].
  assert (HA' : accurate eps (padded BWrap [ny; nx] [ny; nx]) A) by (cbn; rewrite !Z.max_id; exact HA).
  destruct (C103_correlate2d A eps (e_fftw e) (e_gb e) (fin_arr [ny; nx] x') (fin_arr [ny; nx] y') BWrap 1 true huge ny nx ny nx d eq_refl eq_refl Hy Hx Hy Hx HA' Ed) as [c' [Ec' [Sc' B]]].
  exists c'. split; [exact Ec'|]. split; [rewrite Sc'; exact Sd|]. intros k l Hk Hl. specialize (B k l Hk Hl).
  assert (VE : sum2 ny nx (fun i j => y [i; j] * x [(i - ((ny - 1) / 2 - k)) mod ny; (j - ((nx - 1) / 2 - l)) mod nx]%Z) = g2 c k l).
  { rewrite V by auto. apply sum2_ext. intros i j _ _. unfold g2. cbn [fin_arr get nan0]. rewrite !mod_shift_rw. reflexivity. }
  rewrite VE.
  assert (PQ : 1 <= p * q) by (replace 1 with (1 * 1) by ring; apply Rmult_le_compat; lra).
  assert (X0 : forall i j, (0 <= i < ny)%Z -> (0 <= j < nx)%Z -> 0 <= X i j) by (intros i j Hi Hj; apply (near_M _ _ _ _ (NX i j Hi Hj))).
  assert (Y0 : forall i j, (0 <= i < ny)%Z -> (0 <= j < nx)%Z -> 0 <= Y i j) by (intros i j Hi Hj; apply (near_M _ _ _ _ (NY i j Hi Hj))).
  set (SX := pixel_sum ny nx X). set (SY := pixel_sum ny nx Y).
  assert (N1 : near (p * q) (sum2 ny nx (fun i j => Y i j * X ((i - (ny - 1) / 2 + k) mod ny)%Z ((j - (nx - 1) / 2 + l) mod nx)%Z)) (g2 d k l) (g2 c k l)).
  { rewrite V, W by auto. rewrite (Rmult_comm p q). apply near_sum2; [rewrite Rmult_comm; auto|]. intros i j Hi Hj. unfold g2. cbn [fin_arr get nan0].
    apply near_mul; [apply NY; auto|apply NX; apply Z.mod_pos_bound; auto]. }
  assert (XB : forall i j, (0 <= i < ny)%Z -> (0 <= j < nx)%Z -> X i j <= SX).
  { intros i j Hi Hj. apply (sum2_term_le ny nx X); auto. }
  assert (N2 : sum2 ny nx (fun i j => Y i j * X ((i - (ny - 1) / 2 + k) mod ny)%Z ((j - (nx - 1) / 2 + l) mod nx)%Z) <= SX * SY).
  { unfold SY. change (pixel_sum ny nx Y) with (sum2 ny nx Y). rewrite <- sum2_scal. apply sum2_le. intros i j Hi Hj. rewrite Rmult_comm. apply Rmult_le_compat_r; auto. apply XB; apply Z.mod_pos_bound; auto. }
  assert (AX : abs_sum (fin_arr [ny; nx] x') <= SX * p).
  { rewrite (abs_sum_fin ny nx _ (fun i j => Rabs (x' [i; j]))) by reflexivity. unfold SX. rewrite Rmult_comm. change (pixel_sum ny nx X) with (sum2 ny nx X). rewrite <- sum2_scal. apply sum2_le. intros i j Hi Hj. rewrite Rmult_comm. apply (near_abs _ _ _ (x [i; j])); auto. }
  assert (AY : abs_sum (fin_arr [ny; nx] y') <= SY * q).
  { rewrite (abs_sum_fin ny nx _ (fun i j => Rabs (y' [i; j]))) by reflexivity. unfold SY. rewrite Rmult_comm. change (pixel_sum ny nx Y) with (sum2 ny nx Y). rewrite <- sum2_scal. apply sum2_le. intros i j Hi Hj. rewrite Rmult_comm. apply (near_abs _ _ _ (y [i; j])); auto. }
  assert (A0 : forall a : arr num, 0 <= abs_sum a) by (intros; apply sumNR_nonneg; intros; apply Rabs_pos).
  assert (P4 : 1 <= (1 + eps) ^ 4) by (apply pow_R1_Rle; lra).
  assert (SX0 : 0 <= SX) by (apply sumR_nonneg; intros; apply sumR_nonneg; auto). assert (SY0 : 0 <= SY) by (apply sumR_nonneg; intros; apply sumR_nonneg; auto).
  assert (AXY := Rmult_le_compat _ _ _ _ (A0 _) (A0 _) AX AY). assert (AXY2 := Rmult_le_compat_r ((1 + eps) ^ 4 - 1) _ _ ltac:(lra) AXY).
  destruct N1 as [_ [N3 N4]]. assert (N5 := Rmult_le_compat_r (p * q - 1) _ _ ltac:(lra) N2).
  split; [|split; [|lra]].
  - replace 1 with (1 * 1) by ring. apply Rmult_le_compat; lra.
  - replace (g2 c' k l - g2 c k l) with ((g2 c' k l - g2 d k l) + (g2 d k l - g2 c k l)) by ring. refine (Rle_trans _ _ _ (Rabs_triang _ _) _).
    replace (SX * SY * (p * q * (1 + eps) ^ 4 - 1)) with (SX * p * (SY * q) * ((1 + eps) ^ 4 - 1) + SX * SY * (p * q - 1)) by ring. lra.
Qed.
