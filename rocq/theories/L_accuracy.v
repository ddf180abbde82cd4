(** Fourier shifts of an image at nearby positions: distances in the 2-norm *)
From Coq Require Import ZArith Lia List Reals Lra Bool.
From Coquelicot Require Import Complex.
From Verif Require Import Base NDim DFT Kernel Num Py Sum2 M_fast_ffts M_shift M_chi2 Arg
  Spec L_shift Spec2 Spec3 Spec4 L_chi2shift L_fshift L_register P_rounding L_iterzoom2.
Import ListNotations.
Open Scope R_scope.

(** Minkowski's inequality *)
Lemma minkowski sh (p q : list Z -> R) : (forall i, inb sh i -> 0 <= p i /\ 0 <= q i) ->
  sqrt (sumNR sh (fun i => (p i + q i) ^ 2)) <= sqrt (sumNR sh (fun i => p i ^ 2)) + sqrt (sumNR sh (fun i => q i ^ 2)).
Proof.
  intros H. set (A := sumNR sh (fun i => p i ^ 2)). set (B := sumNR sh (fun i => q i ^ 2)). set (S := sumNR sh (fun i => (p i + q i) ^ 2)).
  assert (A0 : 0 <= A) by (apply sumNR_nonneg; intros; apply pow2_ge_0). assert (B0 : 0 <= B) by (apply sumNR_nonneg; intros; apply pow2_ge_0).
  destruct (Rle_lt_or_eq_dec _ _ A0) as [A1|A1].
  2:{ assert (E : S = B).
      { apply sumNR_ext. intros i Hi. assert (Q := sumNR_nonneg_0 sh (fun i => p i ^ 2) ltac:(intros; apply pow2_ge_0) (eq_sym A1) i Hi). cbv beta in Q.
        assert (p i = 0) by (apply Rsqr_eq_0; unfold Rsqr; cbn [pow] in Q; lra). rewrite H0. f_equal. ring. }
      rewrite E, <- A1, sqrt_0. lra. }
  destruct (Rle_lt_or_eq_dec _ _ B0) as [B1|B1].
  2:{ assert (E : S = A).
      { apply sumNR_ext. intros i Hi. assert (Q := sumNR_nonneg_0 sh (fun i => q i ^ 2) ltac:(intros; apply pow2_ge_0) (eq_sym B1) i Hi). cbv beta in Q.
        assert (q i = 0) by (apply Rsqr_eq_0; unfold Rsqr; cbn [pow] in Q; lra). rewrite H0. f_equal. ring. }
      rewrite E, <- B1, sqrt_0. lra. }
  set (P := sqrt A). set (Q := sqrt B). assert (P0 : 0 < P) by (apply sqrt_lt_R0; auto). assert (Q0 : 0 < Q) by (apply sqrt_lt_R0; auto).
  assert (PP : P * P = A) by (apply sqrt_sqrt; lra). assert (QQ : Q * Q = B) by (apply sqrt_sqrt; lra).
  assert (E : S <= (1 + Q / P) * A + (1 + P / Q) * B).
  { unfold S, A, B. rewrite <- !sumNR_scal, <- sumNR_plus. apply sumNR_le. intros i Hi.
    assert (T := pow2_ge_0 (Q * p i - P * q i)). assert (T2 : 0 <= (Q * p i - P * q i) ^ 2 * / (P * Q)).
    { apply Rmult_le_pos; auto. left. apply Rinv_0_lt_compat. apply Rmult_lt_0_compat; auto. }
    replace ((1 + Q / P) * p i ^ 2 + (1 + P / Q) * q i ^ 2) with ((p i + q i) ^ 2 + (Q * p i - P * q i) ^ 2 * / (P * Q)) by (field; lra). lra. }
  replace (_ + _) with ((P + Q) ^ 2) in E by (rewrite <- PP, <- QQ; field; lra).
  rewrite <- (sqrt_pow2 (P + Q)) by lra. apply sqrt_le_1_alt. exact E.
Qed.
Definition l2 (sh : list Z) (a : list Z -> C) : R := sqrt (l2sq sh a).
Lemma l2_triangle sh a b c : l2 sh (fun i => Cminus (a i) (c i)) <= l2 sh (fun i => Cminus (a i) (b i)) + l2 sh (fun i => Cminus (b i) (c i)).
Proof.
  unfold l2, l2sq. refine (Rle_trans _ _ _ _ (minkowski sh (fun i => Cmod (Cminus (a i) (b i))) (fun i => Cmod (Cminus (b i) (c i))) _)).
  - apply sqrt_le_1_alt. apply sumNR_le. intros i Hi. apply pow_incr. split; [apply Cmod_ge_0|].
    replace (Cminus (a i) (c i)) with (Cplus (Cminus (a i) (b i)) (Cminus (b i) (c i))) by ring. apply Cmod_triangle.
  - intros i _. split; apply Cmod_ge_0.
Qed.
Lemma l2_sym sh a b : l2 sh (fun i => Cminus (a i) (b i)) = l2 sh (fun i => Cminus (b i) (a i)).
Proof. unfold l2, l2sq. f_equal. apply sumNR_ext. intros i _. f_equal. rewrite <- Cmod_opp. f_equal. ring. Qed.
Lemma l2_nonneg sh a : 0 <= l2 sh a. Proof. apply sqrt_pos. Qed.
Lemma l2_ext sh a b : (forall i, inb sh i -> a i = b i) -> l2 sh a = l2 sh b.
Proof. intros H. unfold l2, l2sq. f_equal. apply sumNR_ext. intros i Hi. rewrite H; auto. Qed.

Lemma cis_chord a b : Cmod (Cminus (cis a) (cis b)) = 2 * Rabs (sin ((a - b) / 2)).
Proof.
  rewrite <- (Rabs_right 2) at 1 by lra. rewrite <- Rabs_mult. unfold Cmod. rewrite <- (sqrt_Rsqr_abs (2 * sin ((a - b) / 2))). f_equal. unfold cis, Rsqr. cbn [fst snd Cminus Cplus Copp].
  replace (cos a) with (cos ((a + b) / 2 + (a - b) / 2)) by (f_equal; field). replace (cos b) with (cos ((a + b) / 2 - (a - b) / 2)) by (f_equal; field).
  replace (sin a) with (sin ((a + b) / 2 + (a - b) / 2)) by (f_equal; field). replace (sin b) with (sin ((a + b) / 2 - (a - b) / 2)) by (f_equal; field).
  rewrite cos_plus, cos_minus, sin_plus, sin_minus. set (u := (a + b) / 2). set (w := (a - b) / 2).
  assert (T := sin2_cos2 u). unfold Rsqr in T.
  transitivity (4 * (sin w * sin w) * (sin u * sin u + cos u * cos u)); [ring|rewrite T; ring].
Qed.

Section Shifts.
  Variables (sh : list Z).
  Hypothesis Hp : pos_shape sh.
  Lemma dft_minus (a b : list Z -> C) k : dft sh (fun y => Cminus (a y) (b y)) k = Cminus (dft sh a k) (dft sh b k).
  Proof. unfold dft. rewrite <- sumNC_minus. apply sumNC_ext. intros y _. ring. Qed.
  (** the spectrum of the difference of two Fourier shifts *)
  Lemma dft_shift_diff a t t' k : length t = length sh -> length t' = length sh -> inb sh k ->
    Cmod (dft sh (fun y => Cminus (shifted sh a t 0 y) (shifted sh a t' 0 y)) k) = Cmod (dft sh a k) * (2 * Rabs (sin (PI * (fdot sh k t - fdot sh k t')))).
  Proof.
    intros Ht Ht' Hk. rewrite dft_minus, !dft_shifted by auto.
    replace (Cminus _ _) with (Cmult (dft sh a k) (Cminus (cis (- (2 * PI * fdot sh k t))) (cis (- (2 * PI * fdot sh k t'))))) by ring.
    rewrite Cmod_mult, cis_chord. f_equal. f_equal. rewrite <- Rabs_Ropp, <- sin_neg. f_equal. f_equal. field.
  Qed.
  (** nearby shifts give nearby images *)
  Lemma shift_lipschitz a t t' h : length t = length sh -> length t' = length sh -> 0 <= h ->
    (forall k, inb sh k -> 2 * PI * Rabs (fdot sh k t - fdot sh k t') <= h) ->
    l2 sh (fun y => Cminus (shifted sh a t 0 y) (shifted sh a t' 0 y)) <= h * l2 sh a.
  Proof.
    intros Ht Ht' Hh H. unfold l2. rewrite <- (sqrt_pow2 h) by auto. rewrite <- sqrt_mult by (try apply pow2_ge_0; apply l2sq_nonneg). apply sqrt_le_1_alt.
    assert (N := prodZ_pos sh Hp). assert (N' : 0 < IZR (prodZ sh)) by (apply IZR_lt; auto).
    apply (Rmult_le_reg_l (IZR (prodZ sh))); auto. rewrite <- l2sq_dft by auto.
    replace (IZR (prodZ sh) * (h ^ 2 * l2sq sh a)) with (h ^ 2 * (IZR (prodZ sh) * l2sq sh a)) by ring. rewrite <- l2sq_dft by auto.
    unfold l2sq. rewrite <- sumNR_scal. apply sumNR_le. intros k Hk. rewrite dft_shift_diff by auto. rewrite <- Rpow_mult_distr.
    assert (Q := sin_abs_le (PI * (fdot sh k t - fdot sh k t'))). assert (Q0 := Rabs_pos (sin (PI * (fdot sh k t - fdot sh k t')))).
    rewrite Rabs_mult, (Rabs_right PI) in Q by (assert (P := PI_RGT_0); lra). specialize (H k Hk). assert (C0 := Cmod_ge_0 (dft sh a k)).
    apply pow_incr. split; [apply Rmult_le_pos; lra|]. rewrite (Rmult_comm h). apply Rmult_le_compat_l; lra.
  Qed.
  (** images that are close have close spectra: a bound on the shift *)
  Lemma shift_identify a t t' k : length t = length sh -> length t' = length sh -> inb sh k ->
    2 * Rabs (sin (PI * (fdot sh k t - fdot sh k t'))) * Cmod (dft sh a k) <= sqrt (IZR (prodZ sh)) * l2 sh (fun y => Cminus (shifted sh a t 0 y) (shifted sh a t' 0 y)).
  Proof.
    intros Ht Ht' Hk. rewrite Rmult_comm, <- dft_shift_diff by auto. refine (Rle_trans _ _ _ (l2_term sh _ k Hk) _).
    assert (N := prodZ_pos sh Hp). assert (N' : 0 < IZR (prodZ sh)) by (apply IZR_lt; auto).
    unfold l2. rewrite <- sqrt_mult by (try lra; apply l2sq_nonneg). rewrite <- l2sq_dft by auto. apply Rle_refl.
  Qed.
  (** shifting back *)
  Lemma shift_back a b t : length t = length sh ->
    l2 sh (fun y => Cminus (shifted sh b (map Ropp t) 0 y) (a y)) = l2 sh (fun y => Cminus (b y) (shifted sh a t 0 y)).
  Proof.
    intros Ht. assert (Ht' : length (map Ropp t) = length sh) by (rewrite map_length; auto). unfold l2. f_equal.
    assert (E := shifted_energy sh (fun y => Cminus (b y) (shifted sh a t 0 y)) (map Ropp t) 0 Hp Ht'). unfold l2sq. rewrite <- E.
    apply sumNR_ext. intros y Hy. f_equal. f_equal.
    rewrite (shifted_ext sh (fun y => Cminus (b y) (shifted sh a t 0 y)) (fun i => Cplus (Cmult (RtoC 1) (b i)) (Cmult (Copp (RtoC 1)) (shifted sh a t 0 i)))) by (intros; unfold Cminus; cbv beta; ring).
    rewrite shifted_lin, shifted_comp by auto.
    assert (Q : addR t (map Ropp t) = map (fun _ => 0) sh).
    { clear - Ht. revert sh Ht. unfold addR. induction t as [|x t IH]; intros [|n sh] H; try discriminate; [reflexivity|]. cbn. rewrite (IH sh) by (cbn in H; lia). f_equal. ring. }
    rewrite Q, Rplus_0_l, shifted_zero by auto. ring.
  Qed.
End Shifts.

(** the frequencies of an axis are at most 1/2 *)
Lemma freq_half n k : (0 < n)%Z -> (0 <= k < n)%Z -> Rabs (fftfreq n k) <= 1 / 2.
Proof.
  intros Hn Hk. unfold fftfreq, fidx. assert (N : 0 < IZR n) by (apply IZR_lt; auto).
  unfold Rdiv. rewrite Rabs_mult, (Rabs_right (/ IZR n)) by (left; apply Rinv_0_lt_compat; auto).
  apply (Rmult_le_reg_r (IZR n)); auto. rewrite Rmult_assoc, Rinv_l, Rmult_1_r by lra. rewrite <- abs_IZR.
  assert (Q : (2 * Z.abs (if (k <=? (n - 1) / 2)%Z then k else (k - n)%Z) <= n)%Z) by (destruct (Z.leb_spec k ((n - 1) / 2)); Z.to_euclidean_division_equations; lia).
  apply IZR_le in Q. rewrite mult_IZR in Q. lra.
Qed.
