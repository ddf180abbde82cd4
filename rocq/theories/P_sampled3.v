(** C134: two crossed waves, from images to offsets *)
From Coq Require Import ZArith Lia List Reals Lra Bool Classical_Prop.
From Coquelicot Require Import Complex.
From Verif Require Import Base NDim DFT Kernel Num Py Sum2 M_fast_ffts M_shift M_scale M_zoom M_upsample M_convolve M_correlate M_kernel Arg M_chi2 M_xcorr M_register
  Spec L_shift L_scale L_upsample L_convolve Spec2 Spec3 Spec4 L_correlate L_chi2 L_zoom L_register L_register2 L_register3
  L_chi2shift L_fshift P_shift P_scale P_chi2map P_chi2errors P_chi2shift P_chi2shift2 P_register P_register2 P_noise P_rounding L_iterzoom2 L_accuracy P_accuracy P_accuracy2 P_accuracy3
  P_consistent P_consistent2 P_rounding10 P_sampled P_sampled2.
Import ListNotations.
Open Scope R_scope.

(** ** specification *)
(** the scene: a constant and one wave along each axis, of one period per image *)
Definition crossed_waves (ny nx : Z) (a b phi c psi : R) (y x : R) : R :=
  a + b * cos (2 * PI * y / IZR ny - phi) + c * cos (2 * PI * x / IZR nx - psi).
(** im holds the samples of h, displaced by (ty, tx) *)
Definition samples_of (im : arr num) (ny nx : Z) (h : R -> R -> R) (ty tx : R) : Prop :=
  shape im = [ny; nx] /\ forall i j, (0 <= i < ny)%Z -> (0 <= j < nx)%Z -> get im [i; j] = Fin (h (IZR i - ty) (IZR j - tx)).
(** root mean square of the scene *)
Definition rms (a b c : R) : R := sqrt (a ^ 2 + b ^ 2 / 2 + c ^ 2 / 2).

(** ** sums of cosines *)
Lemma cos_sum n k mu : (0 < n)%Z -> (k mod n <> 0)%Z -> sumR n (fun i => cos (2 * PI * (IZR i * IZR k / IZR n) - mu)) = 0.
Proof.
  intros Hn Hk. assert (C := char_sum n k Hn). replace (k mod n =? 0)%Z with false in C by (symmetry; apply Z.eqb_neq; auto).
  assert (E : sumC n (fun i => Cmult (cis (2 * PI * (IZR i * IZR k / IZR n))) (cis (- mu))) = RtoC 0) by (rewrite sumC_scal_r, C; ring).
  apply (f_equal Re) in E. rewrite Re_sumC in E. cbn [Re RtoC fst] in E. rewrite <- E. apply sumR_ext. intros i _. rewrite <- cis_plus. unfold Re, cis. cbn [fst]. f_equal.
Qed.
Lemma cos_sum1 n mu : (2 <= n)%Z -> sumR n (fun i => cos (2 * PI * IZR i / IZR n - mu)) = 0.
Proof.
  intros Hn. rewrite <- (cos_sum n 1 mu) by (solve [lia | rewrite Z.mod_small; lia]). apply sumR_ext. intros i _. f_equal. unfold Rdiv. ring.
Qed.
Lemma cos_sum2 n mu : (3 <= n)%Z -> sumR n (fun i => cos (2 * (2 * PI * IZR i / IZR n - mu))) = 0.
Proof.
  intros Hn. rewrite <- (cos_sum n 2 (2 * mu)) by (solve [lia | rewrite Z.mod_small; lia]). apply sumR_ext. intros i _. f_equal. unfold Rdiv. ring.
Qed.
(** product of two such cosines *)
Lemma cos_prod n mu nu : (3 <= n)%Z -> sumR n (fun i => cos (2 * PI * IZR i / IZR n - mu) * cos (2 * PI * IZR i / IZR n - nu)) = IZR n / 2 * cos (mu - nu).
Proof.
  intros Hn. rewrite (sumR_ext n _ (fun i => / 2 * cos (mu - nu) + / 2 * cos (2 * (2 * PI * IZR i / IZR n - (mu + nu) / 2)))).
  - rewrite sumR_plus, sumR_const, sumR_scal, cos_sum2 by lia. field.
  - intros i _. set (t := 2 * PI * IZR i / IZR n). replace (2 * (t - (mu + nu) / 2)) with ((t - mu) + (t - nu)) by field.
    replace (mu - nu) with ((t - nu) - (t - mu)) by ring. set (A := t - mu). set (B := t - nu). rewrite cos_plus, cos_minus. field.
Qed.
(** inner product of two displaced copies *)
Lemma waves_dot ny nx a b phi c psi sy sx ty tx : (3 <= ny)%Z -> (3 <= nx)%Z ->
  pixel_sum ny nx (fun i j => crossed_waves ny nx a b phi c psi (IZR i - sy) (IZR j - sx) * crossed_waves ny nx a b phi c psi (IZR i - ty) (IZR j - tx)) =
  IZR (ny * nx) * (a ^ 2 + b ^ 2 / 2 * cos (2 * PI * (sy - ty) / IZR ny) + c ^ 2 / 2 * cos (2 * PI * (sx - tx) / IZR nx)).
Proof.
  intros Hy Hx. assert (Ny : 0 < IZR ny) by (apply IZR_lt; lia). assert (Nx : 0 < IZR nx) by (apply IZR_lt; lia).
  set (my := phi + 2 * PI * sy / IZR ny). set (ny' := phi + 2 * PI * ty / IZR ny). set (mx := psi + 2 * PI * sx / IZR nx). set (nx' := psi + 2 * PI * tx / IZR nx).
  set (U := fun i => cos (2 * PI * IZR i / IZR ny - my)). set (U' := fun i => cos (2 * PI * IZR i / IZR ny - ny')).
  set (V := fun j => cos (2 * PI * IZR j / IZR nx - mx)). set (V' := fun j => cos (2 * PI * IZR j / IZR nx - nx')).
  assert (E : forall i j, crossed_waves ny nx a b phi c psi (IZR i - sy) (IZR j - sx) * crossed_waves ny nx a b phi c psi (IZR i - ty) (IZR j - tx) =
    (a + b * U i + c * V j) * (a + b * U' i + c * V' j)).
  { intros i j. unfold crossed_waves, U, U', V, V'.
    replace (2 * PI * (IZR i - sy) / IZR ny - phi) with (2 * PI * IZR i / IZR ny - my) by (unfold my; field; lra). replace (2 * PI * (IZR i - ty) / IZR ny - phi) with (2 * PI * IZR i / IZR ny - ny') by (unfold ny'; field; lra).
    replace (2 * PI * (IZR j - sx) / IZR nx - psi) with (2 * PI * IZR j / IZR nx - mx) by (unfold mx; field; lra). replace (2 * PI * (IZR j - tx) / IZR nx - psi) with (2 * PI * IZR j / IZR nx - nx') by (unfold nx'; field; lra). reflexivity. }
  unfold pixel_sum. transitivity (sumR ny (fun i => (IZR nx * ((a + b * U i) * (a + b * U' i)) + c ^ 2 * (IZR nx / 2 * cos (mx - nx'))))).
  - apply sumR_ext. intros i _. rewrite (sumR_ext nx _ (fun j => (a + b * U i) * (a + b * U' i) + c ^ 2 * (V j * V' j) + c * (a + b * U i) * V' j + c * (a + b * U' i) * V j)).
    2:{ intros j _. rewrite E. ring. }
    rewrite !sumR_plus, sumR_const, !sumR_scal by lia. unfold V, V'. rewrite cos_prod, !cos_sum1 by lia. ring.
  - rewrite sumR_plus, sumR_scal, sumR_const by lia. rewrite (sumR_ext ny _ (fun i => a ^ 2 + b ^ 2 * (U i * U' i) + a * b * U' i + a * b * U i)) by (intros; ring).
    rewrite !sumR_plus, sumR_const, !sumR_scal by lia. unfold U, U'. rewrite cos_prod, !cos_sum1 by lia. rewrite mult_IZR.
    replace (my - ny') with (2 * PI * (sy - ty) / IZR ny) by (unfold my, ny'; field; lra). replace (mx - nx') with (2 * PI * (sx - tx) / IZR nx) by (unfold mx, nx'; field; lra). field.
Qed.
Lemma cos_sin2 z n : 0 < n -> cos (2 * PI * z / n) = 1 - 2 * sin (PI * z / n) ^ 2.
Proof. intros Hn. replace (2 * PI * z / n) with (2 * (PI * z / n)) by (field; lra). rewrite cos_2a_sin. ring. Qed.

Section Scene.
  Variables ny nx : Z.
  Variables a b phi c psi : R.
  Hypotheses (Hy : (3 <= ny)%Z) (Hx : (3 <= nx)%Z).
  Let g := crossed_waves ny nx a b phi c psi.
  Let G : list R -> R := fun p => match p with [y; x] => g y x | _ => 0 end.
  Let Hp : pos_shape [ny; nx]. Proof. apply pos2; lia. Qed.
  Lemma band_crossed : band_limited [ny; nx] G.
  Proof.
    exists [(RtoC a, [0; 0]%Z); (Cmult (RtoC (b / 2)) (cis (- phi)), [1; 0]%Z); (Cmult (RtoC (b / 2)) (cis phi), [-1; 0]%Z); (Cmult (RtoC (c / 2)) (cis (- psi)), [0; 1]%Z); (Cmult (RtoC (c / 2)) (cis psi), [0; -1]%Z)].
    split; [repeat constructor; cbn; lia|]. intros [|y [|x [|? ?]]] L; try discriminate L. cbn [G map fst snd fold_right wave].
    assert (Ny : 0 < IZR ny) by (apply IZR_lt; lia). assert (Nx : 0 < IZR nx) by (apply IZR_lt; lia).
    assert (W : forall k t n, cis (2 * PI * (k * t / n)) = cis (2 * PI * (k * t / n))) by reflexivity. clear W.
    replace (2 * PI * (0 * y / IZR ny)) with 0 by (field; lra). replace (2 * PI * (0 * x / IZR nx)) with 0 by (field; lra). rewrite cis_0.
    assert (Q : forall w z n m, 0 < n -> Cplus (Cmult (Cmult (RtoC (w / 2)) (cis (- m))) (cis (2 * PI * (1 * z / n)))) (Cmult (Cmult (RtoC (w / 2)) (cis m)) (cis (2 * PI * (-1 * z / n)))) = RtoC (w * cos (2 * PI * z / n - m))).
    { intros w z n m Hn. rewrite <- !Cmult_assoc, <- !cis_plus, <- Cmult_plus_distr_l. replace (- m + 2 * PI * (1 * z / n)) with (2 * PI * z / n - m) by (field; lra).
      replace (m + 2 * PI * (-1 * z / n)) with (- (2 * PI * z / n - m)) by (field; lra). set (t := 2 * PI * z / n - m). unfold cis, RtoC, Cplus, Cmult. cbn [fst snd]. rewrite cos_neg, sin_neg. f_equal; field. }
    unfold g, crossed_waves. rewrite !RtoC_plus, <- (Q b y (IZR ny) phi Ny), <- (Q c x (IZR nx) psi Nx). change (IZR (-1)) with (-1). ring.
  Qed.
  Variable f : Z -> Z -> R.
  Hypothesis Hf : forall i j, (0 <= i < ny)%Z -> (0 <= j < nx)%Z -> f i j = g (IZR i) (IZR j).
  Lemma crossed_shift sy sx i j : (0 <= i < ny)%Z -> (0 <= j < nx)%Z -> cshift ny nx f sy sx i j = RtoC (g (IZR i - sy) (IZR j - sx)).
  Proof.
    intros Hi Hj. unfold cshift. rewrite (ti_ext _ _ (fun y => RtoC (G (toR y)))).
    - apply (scene_interp [ny; nx] G [IZR i - sy; IZR j - sx] Hp band_crossed eq_refl).
    - intros y Y. apply inb2 in Y. destruct Y as [k [l [-> [Hk Hl]]]]. cbn [img2 toR map G]. rewrite Hf; auto.
  Qed.
  Lemma crossed_distance u sy sx ty tx : Cmod u = 1 ->
    self_distance ny nx f u sy sx ty tx ^ 2 = 2 * IZR (ny * nx) * (a ^ 2 + b ^ 2 / 2 + c ^ 2 / 2) -
      2 * Re u * (IZR (ny * nx) * (a ^ 2 + b ^ 2 / 2 * cos (2 * PI * (sy - ty) / IZR ny) + c ^ 2 / 2 * cos (2 * PI * (sx - tx) / IZR nx))).
  Proof.
    intros Hu. unfold self_distance. rewrite pow2_sqrt by (apply sum2_nonneg; intros; apply pow2_ge_0).
    assert (U : Re u ^ 2 + Im u ^ 2 = 1) by (rewrite <- sqC, Hu; ring).
    transitivity (pixel_sum ny nx (fun i j => g (IZR i - sy) (IZR j - sx) * g (IZR i - sy) (IZR j - sx) + g (IZR i - ty) (IZR j - tx) * g (IZR i - ty) (IZR j - tx) - 2 * Re u * (g (IZR i - sy) (IZR j - sx) * g (IZR i - ty) (IZR j - tx)))).
    - apply sum2_ext. intros i j Hi Hj. rewrite !crossed_shift by auto. rewrite sqC. set (p := g _ _). set (q := g (IZR i - ty) _). destruct u as [ur ui]. cbn in U |- *.
      replace (ui ^ 2) with (1 - ur ^ 2) by lra. replace ((p + - (ur * q - ui * 0)) * ((p + - (ur * q - ui * 0)) * 1) + (0 + - (ur * 0 + ui * q)) * ((0 + - (ur * 0 + ui * q)) * 1)) with (p * p - 2 * ur * (p * q) + (ur * (ur * 1) + ui * (ui * 1)) * (q * q)) by ring. rewrite U. ring.
    - change (pixel_sum ny nx) with (sum2 ny nx). rewrite sum2_minus, sum2_plus, sum2_scal. change (sum2 ny nx) with (pixel_sum ny nx). unfold g. rewrite !waves_dot by auto.
      replace (2 * PI * (sy - sy) / IZR ny) with 0 by (unfold Rdiv; ring). replace (2 * PI * (sx - sx) / IZR nx) with 0 by (unfold Rdiv; ring).
      replace (2 * PI * (ty - ty) / IZR ny) with 0 by (unfold Rdiv; ring). replace (2 * PI * (tx - tx) / IZR nx) with 0 by (unfold Rdiv; ring). rewrite cos_0. ring.
  Qed.
  Lemma crossed_distance1 sy sx ty tx :
    self_distance ny nx f (RtoC 1) sy sx ty tx ^ 2 = 2 * IZR (ny * nx) * (b ^ 2 * sin (PI * (sy - ty) / IZR ny) ^ 2 + c ^ 2 * sin (PI * (sx - tx) / IZR nx) ^ 2).
  Proof.
    rewrite crossed_distance by apply Cmod_1. rewrite !cos_sin2 by (apply IZR_lt; lia). cbn [Re RtoC fst]. field.
  Qed.
  Lemma crossed_norm : norm2 ny nx f = sqrt (IZR (ny * nx)) * rms a b c.
  Proof.
    unfold norm2, rms. rewrite <- sqrt_mult by (first [apply IZR_le; lia | assert (T1 := pow2_ge_0 a); assert (T2 := pow2_ge_0 b); assert (T3 := pow2_ge_0 c); lra]). f_equal.
    assert (W := waves_dot ny nx a b phi c psi 0 0 0 0 Hy Hx). replace (2 * PI * (0 - 0) / IZR ny) with 0 in W by (unfold Rdiv; ring). replace (2 * PI * (0 - 0) / IZR nx) with 0 in W by (unfold Rdiv; ring). rewrite cos_0, !Rmult_1_r in W. rewrite <- W.
    apply sum2_ext. intros i j Hi Hj. rewrite Hf by auto. fold g. rewrite !Rminus_0_r. ring.
  Qed.
  Lemma crossed_flux : pixel_sum ny nx f = IZR (ny * nx) * a.
  Proof.
    assert (Ny : 0 < IZR ny) by (apply IZR_lt; lia). assert (Nx : 0 < IZR nx) by (apply IZR_lt; lia).
    transitivity (sumR ny (fun i => IZR nx * (a + b * cos (2 * PI * IZR i / IZR ny - phi)))).
    - apply sumR_ext. intros i Hi. rewrite (sumR_ext nx _ (fun j => (a + b * cos (2 * PI * IZR i / IZR ny - phi)) + c * cos (2 * PI * IZR j / IZR nx - psi))) by (intros j Hj; rewrite Hf by auto; reflexivity).
      rewrite sumR_plus, sumR_const, sumR_scal, cos_sum1 by lia. ring.
    - rewrite sumR_scal, sumR_plus, sumR_const, sumR_scal, cos_sum1 by lia. rewrite mult_IZR. ring.
  Qed.
  Lemma half_wave n amp off ph : (3 <= n)%Z -> Cmod (sumC n (fun i => Cmult (RtoC (off + amp * cos (2 * PI * IZR i / IZR n - ph))) (cis (- (2 * PI * (IZR i / IZR n)))))) = IZR n * Rabs amp / 2.
  Proof.
    clear - ny. intros Hn. assert (N : 0 < IZR n) by (apply IZR_lt; lia).
    transitivity (Cmod (Cmult (RtoC (IZR n * amp / 2)) (cis (- ph)))).
    - f_equal.
      rewrite (sumC_ext n _ (fun i => Cplus (Cplus (Cmult (RtoC off) (cis (2 * PI * (IZR i * IZR (-1) / IZR n)))) (Cmult (RtoC (amp / 2)) (cis (- ph))))
        (Cmult (Cmult (RtoC (amp / 2)) (cis ph)) (cis (2 * PI * (IZR i * IZR (-2) / IZR n)))))).
      + rewrite !sumC_plus, !sumC_scal, sumC_const, !char_sum by lia. replace (-1 mod n =? 0)%Z with false by (symmetry; apply Z.eqb_neq; rewrite <- (Z.mod_unique (-1) n (-1) (n - 1)); lia).
        replace (-2 mod n =? 0)%Z with false by (symmetry; apply Z.eqb_neq; rewrite <- (Z.mod_unique (-2) n (-1) (n - 2)); lia). replace (IZR n * amp / 2) with (IZR n * (amp / 2)) by field. rewrite RtoC_mult. ring.
      + intros i _. rewrite <- Cmult_assoc, <- !cis_plus. change (IZR (-1)) with (-1). change (IZR (-2)) with (-2).
        set (t := 2 * PI * (IZR i / IZR n)). replace (2 * PI * (IZR i * -1 / IZR n)) with (- t) by (unfold t; field; lra). replace (ph + 2 * PI * (IZR i * -2 / IZR n)) with (- (t - ph) + - t) by (unfold t; field; lra).
        replace (2 * PI * IZR i / IZR n) with t by (unfold t; field; lra). rewrite cis_plus.
        replace (cis (- ph)) with (Cmult (cis (t - ph)) (cis (- t))) by (rewrite <- cis_plus; f_equal; ring).
        assert (Q : RtoC (off + amp * cos (t - ph)) = Cplus (RtoC off) (Cmult (RtoC (amp / 2)) (Cplus (cis (t - ph)) (cis (- (t - ph)))))).
        { unfold cis, RtoC, Cplus, Cmult. cbn [fst snd]. rewrite cos_neg, sin_neg. f_equal; field. }
        rewrite Q. ring.
    - rewrite Cmod_mult, Cmod_cis, Cmod_R, Rmult_1_r. unfold Rdiv. rewrite !Rabs_mult, (Rabs_right (IZR n)), (Rabs_right (/ 2)) by lra. reflexivity.
  Qed.
  Lemma crossed_wave_y : wave_y ny nx f = IZR (ny * nx) * Rabs b / 2.
  Proof.
    assert (Ny : 0 < IZR ny) by (apply IZR_lt; lia). assert (Nx : 0 < IZR nx) by (apply IZR_lt; lia). unfold wave_y.
    transitivity (Cmod (sumC ny (fun i => Cmult (RtoC (IZR nx * a + (IZR nx * b) * cos (2 * PI * IZR i / IZR ny - phi))) (cis (- (2 * PI * (IZR i / IZR ny))))))).
    - f_equal. apply sumC_ext. intros i Hi. rewrite sumC_scal_r, sumC_RtoC. f_equal. f_equal.
      rewrite (sumR_ext nx _ (fun j => (a + b * cos (2 * PI * IZR i / IZR ny - phi)) + c * cos (2 * PI * IZR j / IZR nx - psi))) by (intros j Hj; rewrite Hf by auto; reflexivity).
      rewrite sumR_plus, sumR_const, sumR_scal, cos_sum1 by lia. ring.
    - rewrite half_wave by auto. rewrite Rabs_mult, (Rabs_right (IZR nx)), mult_IZR by lra. field.
  Qed.
  Lemma crossed_wave_x : wave_x ny nx f = IZR (ny * nx) * Rabs c / 2.
  Proof.
    assert (Ny : 0 < IZR ny) by (apply IZR_lt; lia). assert (Nx : 0 < IZR nx) by (apply IZR_lt; lia). unfold wave_x.
    transitivity (Cmod (sumC nx (fun j => Cmult (RtoC (IZR ny * a + (IZR ny * c) * cos (2 * PI * IZR j / IZR nx - psi))) (cis (- (2 * PI * (IZR j / IZR nx))))))).
    - f_equal. rewrite sumC_swap. apply sumC_ext. intros j Hj. rewrite sumC_scal_r, sumC_RtoC. f_equal. f_equal.
      rewrite (sumR_ext ny _ (fun i => (a + c * cos (2 * PI * IZR j / IZR nx - psi)) + b * cos (2 * PI * IZR i / IZR ny - phi))) by (intros i Hi; rewrite Hf by auto; unfold g, crossed_waves; ring).
      rewrite sumR_plus, sumR_const, sumR_scal, cos_sum1 by lia. ring.
    - rewrite half_wave by auto. rewrite Rabs_mult, (Rabs_right (IZR ny)), mult_IZR by lra. field.
  Qed.
End Scene.

(** ** the nearest node *)
Lemma sinsq_abs x : sin (PI * Rabs x) ^ 2 = sin (PI * x) ^ 2.
Proof. unfold Rabs. destruct (Rcase_abs x); [|reflexivity]. replace (PI * - x) with (- (PI * x)) by ring. rewrite sin_neg. ring. Qed.
Lemma sinsq_lt x y : Rabs x < Rabs y -> Rabs y <= 1 / 2 -> sin (PI * x) ^ 2 < sin (PI * y) ^ 2.
Proof.
  intros H Y. rewrite <- (sinsq_abs x), <- (sinsq_abs y). assert (P := PI_RGT_0). assert (X := Rabs_pos x).
  assert (A : 0 <= PI * Rabs x) by (apply Rmult_le_pos; lra). assert (B : PI * Rabs x < PI * Rabs y) by (apply Rmult_lt_compat_l; lra).
  assert (C : PI * Rabs y <= PI / 2) by (assert (K := Rmult_le_compat_l PI _ _ ltac:(lra) Y); lra).
  assert (D : sin (PI * Rabs x) < sin (PI * Rabs y)) by (apply sin_increasing_1; lra). assert (E : 0 <= sin (PI * Rabs x)) by (apply sin_ge_0; lra).
  cbn [pow]. rewrite !Rmult_1_r. apply Rmult_le_0_lt_compat; auto.
Qed.
Lemma sinsq_period z k : sin (PI * (z + IZR k)) ^ 2 = sin (PI * z) ^ 2.
Proof.
  replace (PI * (z + IZR k)) with (PI * z + IZR k * PI) by ring.
  assert (S0 : sin (IZR k * PI) = 0) by (apply sin_eq_0_1; exists k; reflexivity). assert (Q := sin2_cos2 (IZR k * PI)). rewrite S0 in Q. unfold Rsqr in Q.
  rewrite sin_plus, S0. replace ((sin (PI * z) * cos (IZR k * PI) + cos (PI * z) * 0) ^ 2) with (sin (PI * z) ^ 2 * (cos (IZR k * PI) * cos (IZR k * PI))) by ring. replace (cos (IZR k * PI) * cos (IZR k * PI)) with 1 by lra. ring.
Qed.
Lemma nearest n d p0 p t : (0 < n)%Z -> (0 < d)%Z -> Rabs (IZR p0 / IZR d - t) <= 1 / (2 * IZR d) ->
  sin (PI * (IZR p0 / IZR d - t) / IZR n) ^ 2 <= sin (PI * (IZR p / IZR d - t) / IZR n) ^ 2 /\
  ((forall k, 1 / (2 * IZR d) < Rabs (IZR p / IZR d - t + IZR k * IZR n)) ->
   sin (PI * (IZR p0 / IZR d - t) / IZR n) ^ 2 < sin (PI * (IZR p / IZR d - t) / IZR n) ^ 2).
Proof.
  intros Hn Hd H0. assert (N : 0 < IZR n) by (apply IZR_lt; auto). assert (D : 0 < IZR d) by (apply IZR_lt; auto).
  set (z := (IZR p / IZR d - t) / IZR n). set (k := (- up (z - 1 / 2))%Z). destruct (archimed (z - 1 / 2)) as [A1 A2]. set (w := z + IZR k).
  assert (W : Rabs w <= 1 / 2) by (apply Rabs_le; unfold w, k; rewrite opp_IZR; lra).
  set (z0 := (IZR p0 / IZR d - t) / IZR n).
  replace (PI * (IZR p0 / IZR d - t) / IZR n) with (PI * z0) by (unfold z0; field; lra). replace (PI * (IZR p / IZR d - t) / IZR n) with (PI * z) by (unfold z; field; lra). rewrite <- (sinsq_period z k). fold w.
  assert (Wn : w * IZR n = IZR p / IZR d - t + IZR k * IZR n) by (unfold w, z; field; lra). assert (Zn : z0 * IZR n = IZR p0 / IZR d - t) by (unfold z0; field; lra).
  assert (AW : Rabs w * IZR n = Rabs (w * IZR n)) by (rewrite Rabs_mult, (Rabs_right (IZR n)) by lra; reflexivity).
  assert (AZ : Rabs z0 * IZR n = Rabs (z0 * IZR n)) by (rewrite Rabs_mult, (Rabs_right (IZR n)) by lra; reflexivity).
  assert (LT : Rabs z0 * IZR n < Rabs w * IZR n -> sin (PI * z0) ^ 2 < sin (PI * w) ^ 2) by (intros Q; apply sinsq_lt; auto; exact (Rmult_lt_reg_r _ _ _ N Q)).
  split.
  - set (m := (p - p0 + k * n * d)%Z). assert (M : w * IZR n = IZR p0 / IZR d - t + IZR m / IZR d) by (rewrite Wn; unfold m; rewrite plus_IZR, minus_IZR, !mult_IZR; field; lra).
    destruct (Z.eq_dec m 0) as [M0|M0].
    + assert (E : w = z0) by (apply (Rmult_eq_reg_r (IZR n)); [|lra]; rewrite M, M0, Zn; change (IZR 0) with 0; unfold Rdiv; ring). rewrite E. apply Rle_refl.
    + destruct (Rle_lt_or_eq_dec (Rabs z0) (Rabs w)) as [Q|Q].
      * apply (Rmult_le_reg_r (IZR n)); [auto|]. rewrite AW, AZ, M, Zn. set (q := IZR p0 / IZR d - t) in *.
        assert (T := Rabs_triang_inv (IZR m / IZR d) (- q)). rewrite Rabs_Ropp in T. replace (IZR m / IZR d - - q) with (q + IZR m / IZR d) in T by ring.
        assert (1 / IZR d <= Rabs (IZR m / IZR d)).
        { unfold Rdiv. rewrite Rabs_mult, (Rabs_right (/ IZR d)) by (left; apply Rinv_0_lt_compat; auto). apply Rmult_le_compat_r; [left; apply Rinv_0_lt_compat; auto|]. rewrite <- abs_IZR. apply IZR_le. lia. }
        assert (1 / IZR d = 1 / (2 * IZR d) + 1 / (2 * IZR d)) by (field; lra). lra.
      * left. apply LT. apply Rmult_lt_compat_r; auto.
      * rewrite <- (sinsq_abs z0), <- (sinsq_abs w), Q. apply Rle_refl.
  - intros F. apply LT. rewrite AW, AZ, Wn, Zn. apply Rle_lt_trans with (1 / (2 * IZR d)); auto.
Qed.
Lemma round_half t d : (0 < d)%Z -> exists p : Z, Rabs (IZR p / IZR d - t) <= 1 / (2 * IZR d).
Proof.
  intros Hd. assert (D : 0 < IZR d) by (apply IZR_lt; auto). exists (up (t * IZR d - 1 / 2)). destruct (archimed (t * IZR d - 1 / 2)) as [A1 A2]. set (p := IZR (up _)) in *.
  replace (p / IZR d - t) with ((p - t * IZR d) * / IZR d) by (field; lra). replace (1 / (2 * IZR d)) with (1 / 2 * / IZR d) by (field; lra).
  rewrite Rabs_mult, (Rabs_right (/ IZR d)) by (left; apply Rinv_0_lt_compat; auto). apply Rmult_le_compat_r; [left; apply Rinv_0_lt_compat; auto|]. apply Rabs_le. lra.
Qed.
Lemma not_reaches n p w t : 1 <= w -> ~ reaches n p w t -> forall k, 1 / 2 < Rabs (IZR p - t + IZR k * IZR n).
Proof.
  intros Hw N k. destruct (Rlt_le_dec (1 / 2) (Rabs (IZR p - t + IZR k * IZR n))) as [Q|Q]; auto. exfalso. apply N. exists (- k)%Z. rewrite opp_IZR.
  apply Rcomplements.Rabs_le_between in Q. apply Rabs_le. destruct (Z.even n); lra.
Qed.

Section Images.
  Variables ny nx : Z.
  Variables a b phi c psi ty tx : R.
  Hypotheses (Hy : (3 <= ny)%Z) (Hx : (3 <= nx)%Z).
  Variables im1 im2 : arr num.
  Hypothesis (S1 : samples_of im1 ny nx (crossed_waves ny nx a b phi c psi) 0 0).
  Lemma prep_crossed zm i j : (0 <= i < ny)%Z -> (0 <= j < nx)%Z ->
    prep zm im1 ny nx i j = crossed_waves ny nx (if zm then 0 else a) b phi c psi (IZR i) (IZR j).
  Proof.
    intros Hi Hj. destruct S1 as [_ G]. unfold prep. rewrite G by auto. rewrite !Rminus_0_r. destruct zm; [|reflexivity].
    assert (P : forall i j, (0 <= i < ny)%Z -> (0 <= j < nx)%Z -> px im1 i j = crossed_waves ny nx a b phi c psi (IZR i) (IZR j)) by (intros k l Hk Hl; unfold px; rewrite G by auto; rewrite !Rminus_0_r; reflexivity).
    rewrite (crossed_flux ny nx a b phi c psi Hy Hx (px im1) P).
    assert (V : valid_count im1 ny nx = IZR (ny * nx)).
    { unfold valid_count. rewrite <- (Rmult_1_r (IZR (ny * nx))), <- sum2_const by lia. apply sum2_ext. intros k l Hk Hl. rewrite G by auto. reflexivity. }
    rewrite V. assert (0 < IZR (ny * nx)) by (apply IZR_lt; lia). unfold crossed_waves. field. lra.
  Qed.
End Images.
Lemma crossed_band ny nx a b phi c psi : (3 <= ny)%Z -> (3 <= nx)%Z -> band_limited [ny; nx] (fun p => match p with [y; x] => crossed_waves ny nx a b phi c psi y x | _ => 0 end).
Proof. intros Hy Hx. apply band_crossed; auto. Qed.
(** a true offset explains the pair exactly *)
Lemma crossed_mismatch ny nx a b phi c psi ty tx im1 im2 zm : (3 <= ny)%Z -> (3 <= nx)%Z ->
  samples_of im1 ny nx (crossed_waves ny nx a b phi c psi) 0 0 -> samples_of im2 ny nx (crossed_waves ny nx a b phi c psi) ty tx ->
  mismatch ny nx (prep zm im1 ny nx) (prep zm im2 ny nx) ty tx = 0.
Proof.
  intros Hy Hx S1 S2. unfold mismatch. match goal with |- sqrt ?X = 0 => replace X with 0; [apply sqrt_0|] end. symmetry. apply sum2_const0. intros i j Hi Hj. cbv beta.
  rewrite (crossed_shift ny nx (if zm then 0 else a) b phi c psi Hy Hx (prep zm im1 ny nx)) by (auto; intros; apply prep_crossed; auto).
  assert (E : prep zm im2 ny nx i j = crossed_waves ny nx (if zm then 0 else a) b phi c psi (IZR i - ty) (IZR j - tx)).
  { assert (Ny : 0 < IZR ny) by (apply IZR_lt; lia). assert (Nx : 0 < IZR nx) by (apply IZR_lt; lia).
    assert (D : forall a y x, crossed_waves ny nx a b (phi + 2 * PI * ty / IZR ny) c (psi + 2 * PI * tx / IZR nx) y x = crossed_waves ny nx a b phi c psi (y - ty) (x - tx)).
    { intros a' y x. unfold crossed_waves. f_equal; [f_equal|]; f_equal; f_equal; field; lra. }
    rewrite (prep_crossed ny nx a b (phi + 2 * PI * ty / IZR ny) c (psi + 2 * PI * tx / IZR nx) Hy Hx im2); auto.
    destruct S2 as [Sh G]. split; [exact Sh|]. intros k l Hk Hl. rewrite G by auto. rewrite !Rminus_0_r, D. reflexivity. }
  rewrite E. unfold Cminus. rewrite Cplus_opp_r, Cmod_0. ring.
Qed.
(** rolls out of reach are further than the nearest roll *)
Lemma crossed_far ny nx a b phi c psi ty tx f wy wx : (3 <= ny)%Z -> (3 <= nx)%Z -> b <> 0 -> c <> 0 -> 1 <= wy -> 1 <= wx ->
  (forall i j, (0 <= i < ny)%Z -> (0 <= j < nx)%Z -> f i j = crossed_waves ny nx a b phi c psi (IZR i) (IZR j)) ->
  exists p0 q0 : Z, forall p q : Z, ~ (reaches ny p wy ty /\ reaches nx q wx tx) ->
    self_distance ny nx f (RtoC 1) (IZR p0) (IZR q0) ty tx < self_distance ny nx f (RtoC 1) (IZR p) (IZR q) ty tx.
Proof.
  intros Hy Hx Hb Hc Wy Wx Hf. destruct (round_half ty 1 eq_refl) as [p0 P0]. destruct (round_half tx 1 eq_refl) as [q0 Q0]. exists p0, q0. intros p q N.
  destruct (nearest ny 1 p0 p ty ltac:(lia) eq_refl P0) as [A1 A2]. destruct (nearest nx 1 q0 q tx ltac:(lia) eq_refl Q0) as [B1 B2].
  change (IZR 1) with 1 in *. assert (D1 : forall z, z / 1 = z) by (intros; field). rewrite !D1 in *. replace (1 / (2 * 1)) with (1 / 2) in * by field.
  assert (b2 : 0 < b ^ 2) by (assert (QQ := Rsqr_pos_lt _ Hb); rewrite Rsqr_pow2 in QQ; exact QQ). assert (c2 : 0 < c ^ 2) by (assert (QQ := Rsqr_pos_lt _ Hc); rewrite Rsqr_pow2 in QQ; exact QQ).
  assert (M : 0 < 2 * IZR (ny * nx)) by (assert (0 < IZR (ny * nx)) by (apply IZR_lt; lia); lra).
  apply Rsqr_incrst_0; [|apply sqrt_pos|apply sqrt_pos]. rewrite !Rsqr_pow2, !(crossed_distance1 ny nx a b phi c psi Hy Hx f Hf). apply Rmult_lt_compat_l; [exact M|].
  destruct (classic (reaches ny p wy ty)) as [R1|R1].
  - assert (R2 : ~ reaches nx q wx tx) by tauto. specialize (B2 (not_reaches _ _ _ _ Wx R2)). assert (K1 := Rmult_le_compat_l _ _ _ (Rlt_le _ _ b2) A1). assert (K2 := Rmult_lt_compat_l _ _ _ c2 B2). lra.
  - specialize (A2 (not_reaches _ _ _ _ Wy R1)). assert (K1 := Rmult_lt_compat_l _ _ _ b2 A2). assert (K2 := Rmult_le_compat_l _ _ _ (Rlt_le _ _ c2) B1). lra.
Qed.

(** *** C134 *)
Theorem C134_chi2_shift :
  forall e im1 im2 err s us nthreads use_np zeromean nfitted ret_err ret_arr mas mns allow_huge ny nx t u s1 s2 a b phi c psi ty tx,
  (3 <= ny)%Z -> (3 <= nx)%Z -> b <> 0 -> c <> 0 ->
  samples_of im1 ny nx (crossed_waves ny nx a b phi c psi) 0 0 -> samples_of im2 ny nx (crossed_waves ny nx a b phi c psi) ty tx ->
  size_ok e allow_huge ny nx -> (err = ErrNone /\ s = 1 \/ err = ErrScalar s /\ s <> 0) -> one_sigma e t ->
  explicit_grid us ny nx u s1 s2 -> 2 * u <= IZR s1 -> 2 * u <= IZR s2 ->
  exists x y rest,
    chi2_shift e im1 im2 err us BWrap nthreads use_np zeromean nfitted false ret_err ret_arr mas mns allow_huge = Ok (RNum x :: RNum y :: rest) /\
    off_by ny (IZR ny * PI * rms (if zeromean then 0 else a) b c / (2 * u * Rabs b)) y ty /\
    off_by nx (IZR nx * PI * rms (if zeromean then 0 else a) b c / (2 * u * Rabs c)) x tx.
Proof.
  intros e im1 im2 err s us nt np zm nf re ra mas mns huge ny nx t u s1 s2 a b phi c psi ty tx Hy Hx Hb Hc S1 S2 Hh He Ht Hg W1 W2.
  set (f1 := prep zm im1 ny nx). set (a' := if zm then 0 else a).
  assert (F : forall i j, (0 <= i < ny)%Z -> (0 <= j < nx)%Z -> f1 i j = crossed_waves ny nx a' b phi c psi (IZR i) (IZR j)) by (intros; apply prep_crossed; auto).
  assert (U0 : 0 < u) by (destruct us as [|k|r]; [contradiction|..]; cbn in Hg; [destruct Hg as [-> [Q _]]; apply IZR_lt; lia|destruct Hg as [-> [Q _]]; lra]).
  assert (WW : forall s, 2 * u <= IZR s -> 1 <= IZR s / (2 * u)) by (intros s' Q; apply (Rmult_le_reg_r (2 * u)); [lra|]; unfold Rdiv; rewrite Rmult_assoc, Rinv_l; lra).
  destruct (crossed_far ny nx a' b phi c psi ty tx f1 (IZR s1 / (2 * u)) (IZR s2 / (2 * u)) Hy Hx Hb Hc (WW _ W1) (WW _ W2) F) as [p0 [q0 Far]].
  assert (M := crossed_mismatch ny nx a b phi c psi ty tx im1 im2 zm Hy Hx S1 S2).
  assert (N : 0 < IZR (ny * nx)) by (apply IZR_lt; lia). assert (Ny : 0 < IZR ny) by (apply IZR_lt; lia). assert (Nx : 0 < IZR nx) by (apply IZR_lt; lia).
  assert (Ab := Rabs_pos_lt _ Hb). assert (Ac := Rabs_pos_lt _ Hc).
  destruct (C121_chi2_shift e im1 im2 err s us nt np zm nf re ra mas mns huge ny nx t u s1 s2 ty tx p0 q0 (proj1 S1) (proj1 S2) Hy Hx Hh He Hg Ht) as [x [y [rest [E [Oy Ox]]]]].
  - intros p q Q. fold f1. unfold f1 at 2. rewrite M. specialize (Far p q Q). lra.
  - fold f1. rewrite (crossed_wave_y ny nx a' b phi c psi Hy Hx f1 F). assert (Q := Rmult_lt_0_compat _ _ N Ab). lra.
  - fold f1. rewrite (crossed_wave_x ny nx a' b phi c psi Hy Hx f1 F). assert (Q := Rmult_lt_0_compat _ _ N Ac). lra.
  - exists x, y, rest. split; [exact E|]. fold f1 in Oy, Ox. rewrite (crossed_wave_y ny nx a' b phi c psi Hy Hx f1 F) in Oy. rewrite (crossed_wave_x ny nx a' b phi c psi Hy Hx f1 F) in Ox.
    unfold f1 at 1 in Oy. unfold f1 at 1 in Ox. rewrite M in Oy, Ox. rewrite (crossed_norm ny nx a' b phi c psi Hy Hx f1 F) in Oy, Ox.
    assert (SS : sqrt (IZR (ny * nx)) * sqrt (IZR (ny * nx)) = IZR (ny * nx)) by (apply sqrt_sqrt; lra).
    assert (Q : forall n z, 0 < z -> n * (sqrt (IZR (ny * nx)) * (2 * 0 + PI / u * (sqrt (IZR (ny * nx)) * rms a' b c))) / (4 * (IZR (ny * nx) * z / 2)) = n * PI * rms a' b c / (2 * u * z)).
    { intros n z Hz. replace (sqrt (IZR (ny * nx)) * (2 * 0 + PI / u * (sqrt (IZR (ny * nx)) * rms a' b c))) with (sqrt (IZR (ny * nx)) * sqrt (IZR (ny * nx)) * (PI / u * rms a' b c)) by ring. rewrite SS. field. lra. }
    rewrite Q in Oy, Ox by auto. split; assumption.
Qed.
Print Assumptions C134_chi2_shift.

(** convergence: any image near enough to the displaced scene, any large enough factor *)
Theorem C134_noisy_images :
  forall ny nx a b phi c psi ty tx im1, (3 <= ny)%Z -> (3 <= nx)%Z -> b <> 0 -> c <> 0 ->
  samples_of im1 ny nx (crossed_waves ny nx a b phi c psi) 0 0 ->
  forall delta, 0 < delta -> exists noise factor, 0 < noise /\
  forall e im2 err s k nthreads use_np nfitted ret_err ret_arr mas mns allow_huge t,
  shape im2 = [ny; nx] -> size_ok e allow_huge ny nx -> (err = ErrNone /\ s = 1 \/ err = ErrScalar s /\ s <> 0) -> one_sigma e t ->
  norm2 ny nx (fun i j => px im2 i j - crossed_waves ny nx a b phi c psi (IZR i - ty) (IZR j - tx)) <= noise -> (factor <= k)%Z ->
  exists x y rest,
    chi2_shift e im1 im2 err (UInt k) BWrap nthreads use_np false nfitted false ret_err ret_arr mas mns allow_huge = Ok (RNum x :: RNum y :: rest) /\
    off_by ny delta y ty /\ off_by nx delta x tx.
Proof.
  intros ny nx a b phi c psi ty tx im1 Hy Hx Hb Hc S1 delta Hd. set (f1 := prep false im1 ny nx).
  assert (F : forall i j, (0 <= i < ny)%Z -> (0 <= j < nx)%Z -> f1 i j = crossed_waves ny nx a b phi c psi (IZR i) (IZR j)) by (intros; apply (prep_crossed ny nx a b phi c psi Hy Hx im1 S1 false); auto).
  destruct (crossed_far ny nx a b phi c psi ty tx f1 1 1 Hy Hx Hb Hc (Rle_refl 1) (Rle_refl 1) F) as [p0 [q0 Far]].
  assert (N : 0 < IZR (ny * nx)) by (apply IZR_lt; lia). assert (Ab := Rabs_pos_lt _ Hb). assert (Ac := Rabs_pos_lt _ Hc).
  destruct (C121_convergence im1 false ny nx ty tx p0 q0 (proj1 S1) Hy Hx Far) with (delta := delta) as [noise [factor [N0 K]]]; auto.
  - fold f1. rewrite (crossed_wave_y ny nx a b phi c psi Hy Hx f1 F). assert (Q := Rmult_lt_0_compat _ _ N Ab). lra.
  - fold f1. rewrite (crossed_wave_x ny nx a b phi c psi Hy Hx f1 F). assert (Q := Rmult_lt_0_compat _ _ N Ac). lra.
  - exists noise, factor. split; [exact N0|]. intros e im2 err s k nt np nf re ra mas mns huge t Sh Hh He Ht Hn Hk. apply (K e im2 err s k nt np nf re ra mas mns huge t); auto.
    refine (Rle_trans _ _ _ (C133_mismatch ny nx _ _ _ ty tx ltac:(lia) ltac:(lia) (crossed_band ny nx a b phi c psi Hy Hx)) _).
    replace (from_scene ny nx (prep false im1 ny nx) _ 0 0) with 0; [unfold from_scene; rewrite Rplus_0_l; exact Hn|].
    symmetry. unfold from_scene, norm2. match goal with |- sqrt ?X = 0 => replace X with 0; [apply sqrt_0|] end. symmetry. apply sum2_const0. intros i j Hi Hj. cbv beta. rewrite !Rminus_0_r. fold f1. rewrite F by auto. ring.
Qed.
Print Assumptions C134_noisy_images.

Lemma not_near n p u t : 3 <= u -> ~ near_coarse n u (IZR p / 2) t -> forall k, 1 / 4 < Rabs (IZR p / 2 - t + IZR k * IZR n).
Proof.
  intros Hu F k. destruct (Rlt_le_dec (1 / 4) (Rabs (IZR p / 2 - t + IZR k * IZR n))) as [Q|Q]; auto. exfalso. apply F. exists (- k)%Z. rewrite opp_IZR.
  replace (t + - IZR k * IZR n - IZR p / 2) with (- (IZR p / 2 - t + IZR k * IZR n)) by ring. rewrite Rabs_Ropp. refine (Rle_trans _ _ _ Q _).
  assert (/ u <= / 3) by (apply Rinv_le_contravar; lra). replace (3 / (2 * u)) with (3 / 2 * / u) by (field; lra). lra.
Qed.
Lemma not_half_near n p t : ~ half_near n p t -> forall k, 1 / 4 < Rabs (IZR p / 2 - t + IZR k * IZR n).
Proof.
  intros F k. destruct (Rlt_le_dec (1 / 4) (Rabs (IZR p / 2 - t + IZR k * IZR n))) as [Q|Q]; auto. exfalso. apply F. exists (- k)%Z. rewrite opp_IZR.
  replace (t + - IZR k * IZR n - IZR p / 2) with (- (IZR p / 2 - t + IZR k * IZR n)) by ring. rewrite Rabs_Ropp. lra.
Qed.

Lemma crossed_far_half ny nx a b phi c psi ty tx f : (3 <= ny)%Z -> (3 <= nx)%Z -> b <> 0 -> c <> 0 -> b ^ 2 + c ^ 2 <= 4 * a ^ 2 ->
  (forall i j, (0 <= i < ny)%Z -> (0 <= j < nx)%Z -> f i j = crossed_waves ny nx a b phi c psi (IZR i) (IZR j)) ->
  exists p0 q0 : Z, forall (p q : Z) w, Cmod w = 1 -> (forall k, 1 / 4 < Rabs (IZR p / 2 - ty + IZR k * IZR ny)) \/ (forall k, 1 / 4 < Rabs (IZR q / 2 - tx + IZR k * IZR nx)) ->
    self_distance ny nx f (RtoC 1) (IZR p0 / 2) (IZR q0 / 2) ty tx < self_distance ny nx f w (IZR p / 2) (IZR q / 2) ty tx.
Proof.
  intros Hy Hx Hb Hc Ha Hf. destruct (round_half ty 2 eq_refl) as [p0 P0]. destruct (round_half tx 2 eq_refl) as [q0 Q0]. exists p0, q0. intros p q w Hw N.
  destruct (nearest ny 2 p0 p ty ltac:(lia) eq_refl P0) as [A1 A2]. destruct (nearest nx 2 q0 q tx ltac:(lia) eq_refl Q0) as [B1 B2].
  change (IZR 2) with 2 in *. replace (1 / (2 * 2)) with (1 / 4) in * by field.
  assert (b2 : 0 < b ^ 2) by (assert (QQ := Rsqr_pos_lt _ Hb); rewrite Rsqr_pow2 in QQ; exact QQ). assert (c2 : 0 < c ^ 2) by (assert (QQ := Rsqr_pos_lt _ Hc); rewrite Rsqr_pow2 in QQ; exact QQ).
  assert (M : 0 < IZR (ny * nx)) by (apply IZR_lt; lia). assert (Ny : 0 < IZR ny) by (apply IZR_lt; lia). assert (Nx : 0 < IZR nx) by (apply IZR_lt; lia).
  set (sy := sin (PI * (IZR p / 2 - ty) / IZR ny)) in *. set (sx := sin (PI * (IZR q / 2 - tx) / IZR nx)) in *.
  set (sy0 := sin (PI * (IZR p0 / 2 - ty) / IZR ny)) in *. set (sx0 := sin (PI * (IZR q0 / 2 - tx) / IZR nx)) in *.
  assert (SUM : b ^ 2 * sy0 ^ 2 + c ^ 2 * sx0 ^ 2 < b ^ 2 * sy ^ 2 + c ^ 2 * sx ^ 2).
  { destruct N as [R1|R1].
    - specialize (A2 R1). assert (K1 := Rmult_lt_compat_l _ _ _ b2 A2). assert (K2 := Rmult_le_compat_l _ _ _ (Rlt_le _ _ c2) B1). lra.
    - specialize (B2 R1). assert (K1 := Rmult_le_compat_l _ _ _ (Rlt_le _ _ b2) A1). assert (K2 := Rmult_lt_compat_l _ _ _ c2 B2). lra. }
  (* the nearest half-pixel is less than an eighth of a period away *)
  assert (SM : forall n z, (3 <= n)%Z -> Rabs z <= 1 / 4 -> sin (PI * z / IZR n) ^ 2 < 1 / 2).
  { intros n z Hn Hz. assert (N3 : 3 <= IZR n) by (apply IZR_le; auto). assert (NN : 0 < IZR n) by lra. assert (NI : 0 < / IZR n) by (apply Rinv_0_lt_compat; auto). assert (NI3 : / IZR n <= / 3) by (apply Rinv_le_contravar; lra).
    replace (PI * z / IZR n) with (PI * (z / IZR n)) by (unfold Rdiv; ring).
    apply Rlt_le_trans with (sin (PI * (1 / 4)) ^ 2).
    - apply sinsq_lt; rewrite (Rabs_right (1 / 4)) by lra; [|lra]. unfold Rdiv at 1. rewrite Rabs_mult, (Rabs_right (/ IZR n)) by lra. apply Rle_lt_trans with (1 / 4 * / 3); [|lra]. apply Rmult_le_compat; try lra. apply Rabs_pos.
    - replace (PI * (1 / 4)) with (PI / 4) by field. rewrite sin_PI4. replace ((1 / sqrt 2) ^ 2) with (/ (sqrt 2 * sqrt 2)) by (field; apply sqrt2_neq_0). rewrite sqrt_sqrt by lra. lra. }
  assert (Y0 : sy0 ^ 2 < 1 / 2) by (apply SM; auto). assert (X0 : sx0 ^ 2 < 1 / 2) by (apply SM; auto).
  assert (Y1 : sy ^ 2 <= 1) by (assert (Q := sin2_cos2 (PI * (IZR p / 2 - ty) / IZR ny)); fold sy in Q; rewrite !Rsqr_pow2 in Q; assert (Q2 := pow2_ge_0 (cos (PI * (IZR p / 2 - ty) / IZR ny))); lra).
  assert (X1 : sx ^ 2 <= 1) by (assert (Q := sin2_cos2 (PI * (IZR q / 2 - tx) / IZR nx)); fold sx in Q; rewrite !Rsqr_pow2 in Q; assert (Q2 := pow2_ge_0 (cos (PI * (IZR q / 2 - tx) / IZR nx))); lra).
  assert (R : - 1 <= Re w <= 1). { assert (Q := re_le_Cmod w). rewrite Hw in Q. apply Rabs_def2b in Q || apply Rcomplements.Rabs_le_between in Q. lra. }
  apply Rsqr_incrst_0; [|apply sqrt_pos|apply sqrt_pos]. rewrite !Rsqr_pow2, (crossed_distance1 ny nx a b phi c psi Hy Hx f Hf), (crossed_distance ny nx a b phi c psi Hy Hx f Hf) by auto. rewrite !cos_sin2 by auto. fold sy sx sy0 sx0.
  set (T := a ^ 2 + b ^ 2 / 2 * (1 - 2 * sy ^ 2) + c ^ 2 / 2 * (1 - 2 * sx ^ 2)). set (V := a ^ 2 + b ^ 2 / 2 + c ^ 2 / 2).
  replace (2 * IZR (ny * nx) * V - 2 * Re w * (IZR (ny * nx) * T)) with (2 * IZR (ny * nx) * (V - Re w * T)) by ring. apply Rmult_lt_compat_l; [lra|].
  assert (KB := Rmult_lt_compat_l _ _ _ b2 Y0). assert (KC := Rmult_lt_compat_l _ _ _ c2 X0). assert (KB1 := Rmult_le_compat_l _ _ _ (Rlt_le _ _ b2) Y1). assert (KC1 := Rmult_le_compat_l _ _ _ (Rlt_le _ _ c2) X1).
  assert (ET : T = V - (b ^ 2 * sy ^ 2 + c ^ 2 * sx ^ 2)) by (unfold T, V; field).
  assert (EV : V = a ^ 2 + (b ^ 2 + c ^ 2) / 2) by (unfold V; field).
  set (Q0' := b ^ 2 * sy0 ^ 2 + c ^ 2 * sx0 ^ 2) in *. set (Q1 := b ^ 2 * sy ^ 2 + c ^ 2 * sx ^ 2) in *.
  destruct (Rle_lt_dec 0 T) as [T0|T0].
  - assert (K := Rmult_le_compat_r T _ _ T0 (proj2 R)). lra.
  - assert (K : Re w * T <= - T) by (assert (K := Rmult_le_compat_r (- T) _ _ ltac:(lra) (proj1 R)); lra). unfold Q0', Q1 in *. lra.
Qed.

Theorem C134_register_images :
  forall has_fftw im1 im2 usfac ret_err nthreads use_np ny nx a b phi c psi ty tx,
  (3 <= ny)%Z -> (3 <= nx)%Z -> b <> 0 -> c <> 0 -> b ^ 2 + c ^ 2 <= 4 * a ^ 2 -> 3 <= usfac ->
  samples_of im1 ny nx (crossed_waves ny nx a b phi c psi) 0 0 -> samples_of im2 ny nx (crossed_waves ny nx a b phi c psi) ty tx ->
  exists x y,
    register_images has_fftw im1 im2 usfac false ret_err false None nthreads use_np = Ok (nums [x; y] ++ err_out ret_err usfac) /\
    off_by ny (IZR ny * PI * rms a b c * (2 / Rabs b + 1 / Rabs a) / (4 * usfac)) y ty /\
    off_by nx (IZR nx * PI * rms a b c * (2 / Rabs c + 1 / Rabs a) / (4 * usfac)) x tx.
Proof.
  intros hf im1 im2 u re nt np ny nx a b phi c psi ty tx Hy Hx Hb Hc Ha Hu S1 S2. set (f1 := prep false im1 ny nx).
  assert (F : forall i j, (0 <= i < ny)%Z -> (0 <= j < nx)%Z -> f1 i j = crossed_waves ny nx a b phi c psi (IZR i) (IZR j)) by (intros; apply (prep_crossed ny nx a b phi c psi Hy Hx im1 S1 false); auto).
  destruct (crossed_far_half ny nx a b phi c psi ty tx f1 Hy Hx Hb Hc Ha F) as [p0 [q0 Far]].
  assert (M := crossed_mismatch ny nx a b phi c psi ty tx im1 im2 false Hy Hx S1 S2).
  assert (N : 0 < IZR (ny * nx)) by (apply IZR_lt; lia). assert (Ny : 0 < IZR ny) by (apply IZR_lt; lia). assert (Nx : 0 < IZR nx) by (apply IZR_lt; lia).
  assert (a0 : a <> 0). { intros ->. assert (QQ := Rsqr_pos_lt _ Hb). rewrite Rsqr_pow2 in QQ. assert (Q2 := pow2_ge_0 c). lra. }
  assert (Aa := Rabs_pos_lt _ a0). assert (Ab := Rabs_pos_lt _ Hb). assert (Ac := Rabs_pos_lt _ Hc).
  assert (FL : Rabs (pixel_sum ny nx f1) = IZR (ny * nx) * Rabs a) by (rewrite (crossed_flux ny nx a b phi c psi Hy Hx f1 F), Rabs_mult, (Rabs_right (IZR (ny * nx))) by lra; reflexivity).
  assert (WY := crossed_wave_y ny nx a b phi c psi Hy Hx f1 F). assert (WX := crossed_wave_x ny nx a b phi c psi Hy Hx f1 F).
  destruct (C121_register_images hf im1 im2 u re false nt np ny nx ty tx p0 q0 (proj1 S1) (proj1 S2) Hy Hx ltac:(lra)) as [x [y [E [Oy Ox]]]].
  - intros p q w Hw Q. fold f1. unfold f1 at 2. rewrite M. specialize (Far p q w Hw ltac:(apply not_and_or in Q; destruct Q as [Q|Q]; [left|right]; apply (not_near _ _ u); auto)). lra.
  - fold f1. rewrite WY. assert (Q := Rmult_lt_0_compat _ _ N Ab). lra.
  - fold f1. rewrite WX. assert (Q := Rmult_lt_0_compat _ _ N Ac). lra.
  - fold f1. rewrite FL. apply Rmult_lt_0_compat; auto.
  - exists x, y. split; [exact E|]. fold f1 in Oy, Ox. rewrite WY, FL in Oy. rewrite WX, FL in Ox. unfold f1 in Oy at 1. unfold f1 in Ox at 1. rewrite M in Oy, Ox. rewrite (crossed_norm ny nx a b phi c psi Hy Hx f1 F) in Oy, Ox.
    assert (SS : sqrt (IZR (ny * nx)) * sqrt (IZR (ny * nx)) = IZR (ny * nx)) by (apply sqrt_sqrt; lra).
    assert (Q : forall n z, 0 < z -> n * (sqrt (IZR (ny * nx)) * (2 * 0 + PI / u * (sqrt (IZR (ny * nx)) * rms a b c)) * (1 / (IZR (ny * nx) * z / 2) + 1 / (IZR (ny * nx) * Rabs a))) / 4 = n * PI * rms a b c * (2 / z + 1 / Rabs a) / (4 * u)).
    { intros n z Hz. replace (sqrt (IZR (ny * nx)) * (2 * 0 + PI / u * (sqrt (IZR (ny * nx)) * rms a b c))) with (sqrt (IZR (ny * nx)) * sqrt (IZR (ny * nx)) * (PI / u * rms a b c)) by ring. rewrite SS. field. repeat split; lra. }
    rewrite Q in Oy, Ox by auto. split; assumption.
Qed.
Print Assumptions C134_register_images.

Theorem C134_register_noisy_images :
  forall ny nx a b phi c psi ty tx im1, (3 <= ny)%Z -> (3 <= nx)%Z -> b <> 0 -> c <> 0 -> b ^ 2 + c ^ 2 <= 4 * a ^ 2 ->
  samples_of im1 ny nx (crossed_waves ny nx a b phi c psi) 0 0 ->
  forall delta, 0 < delta -> exists noise factor, 0 < noise /\
  forall has_fftw im2 usfac ret_err nthreads use_np,
  shape im2 = [ny; nx] ->
  norm2 ny nx (fun i j => px im2 i j - crossed_waves ny nx a b phi c psi (IZR i - ty) (IZR j - tx)) <= noise -> factor <= usfac ->
  exists x y,
    register_images has_fftw im1 im2 usfac false ret_err false None nthreads use_np = Ok (nums [x; y] ++ err_out ret_err usfac) /\
    off_by ny delta y ty /\ off_by nx delta x tx.
Proof.
  intros ny nx a b phi c psi ty tx im1 Hy Hx Hb Hc Ha S1 delta Hd. set (f1 := prep false im1 ny nx).
  assert (F : forall i j, (0 <= i < ny)%Z -> (0 <= j < nx)%Z -> f1 i j = crossed_waves ny nx a b phi c psi (IZR i) (IZR j)) by (intros; apply (prep_crossed ny nx a b phi c psi Hy Hx im1 S1 false); auto).
  destruct (crossed_far_half ny nx a b phi c psi ty tx f1 Hy Hx Hb Hc Ha F) as [p0 [q0 Far]].
  assert (N : 0 < IZR (ny * nx)) by (apply IZR_lt; lia).
  assert (a0 : a <> 0). { intros ->. assert (QQ := Rsqr_pos_lt _ Hb). rewrite Rsqr_pow2 in QQ. assert (Q2 := pow2_ge_0 c). lra. }
  assert (Aa := Rabs_pos_lt _ a0). assert (Ab := Rabs_pos_lt _ Hb). assert (Ac := Rabs_pos_lt _ Hc).
  destruct (waves ny nx f1 Hy Hx) as [W1 [W2 W0]]. rewrite amp_dft in W0, W1, W2.
  rewrite (crossed_flux ny nx a b phi c psi Hy Hx f1 F), Rabs_mult, (Rabs_right (IZR (ny * nx))) in W0 by lra. rewrite (crossed_wave_y ny nx a b phi c psi Hy Hx f1 F) in W1. rewrite (crossed_wave_x ny nx a b phi c psi Hy Hx f1 F) in W2.
  destruct (C121_register_convergence im1 false ny nx ty tx p0 q0 0 0 0 0 (proj1 S1) Hy Hx) with (delta := delta) as [noise [factor [N0 K]]]; auto.
  - intros p q w Hw Q. apply Far; auto. apply not_and_or in Q. destruct Q as [Q|Q]; [left|right]; apply not_half_near; auto.
  - fold f1. unfold neighbours. change (0 + 1)%Z with 1%Z. rewrite W0, W1, W2. assert (0 < IZR (ny * nx) * Rabs a) by (apply Rmult_lt_0_compat; auto). assert (0 < IZR (ny * nx) * Rabs b) by (apply Rmult_lt_0_compat; auto). assert (0 < IZR (ny * nx) * Rabs c) by (apply Rmult_lt_0_compat; auto).
    assert (forall n, (3 <= n)%Z -> (1 <= (n - 1) / 2)%Z) by (intros n Hn; Z.to_euclidean_division_equations; lia). repeat split; try lia; try lra; auto.
  - exists noise, factor. split; [exact N0|]. intros hf im2 u re nt np Sh Hn Hk. apply (K hf im2 u re nt np); auto.
    refine (Rle_trans _ _ _ (C133_mismatch ny nx _ _ _ ty tx ltac:(lia) ltac:(lia) (crossed_band ny nx a b phi c psi Hy Hx)) _).
    replace (from_scene ny nx (prep false im1 ny nx) _ 0 0) with 0; [unfold from_scene; rewrite Rplus_0_l; exact Hn|].
    symmetry. unfold from_scene, norm2. match goal with |- sqrt ?X = 0 => replace X with 0; [apply sqrt_0|] end. symmetry. apply sum2_const0. intros i j Hi Hj. cbv beta. rewrite !Rminus_0_r. fold f1. rewrite F by auto. ring.
Qed.
Print Assumptions C134_register_noisy_images.

(** a 32 x 48 scene of brightness 2 with ripples of 1, displaced by (5/3, - 22/7): both within the stated distance *)
Definition example_im (ty tx : R) : arr num := mk2 32 48 (fun i j => Fin (crossed_waves 32 48 2 1 0 1 0 (IZR i - ty) (IZR j - tx))).
Lemma example_samples ty tx : samples_of (example_im ty tx) 32 48 (crossed_waves 32 48 2 1 0 1 0) ty tx.
Proof. split; [reflexivity|]. intros i j Hi Hj. unfold example_im. reflexivity. Qed.
Lemma example_rms : rms 2 1 1 = sqrt 5.
Proof. unfold rms. f_equal. field. Qed.
Example C134_nonvacuous :
  let e := Env true (2 ^ 30) true (fun _ _ => Fin 1) in
  (exists x y rest, chi2_shift e (example_im 0 0) (example_im (5 / 3) (- (22 / 7))) ErrNone (UInt 1000) BWrap 1 true false 2 false true false 512 (11 / 10) false = Ok (RNum x :: RNum y :: rest) /\
     off_by 32 (32 * PI * sqrt 5 / (2 * 1000 * 1)) y (5 / 3) /\ off_by 48 (48 * PI * sqrt 5 / (2 * 1000 * 1)) x (- (22 / 7))) /\
  (exists x y, register_images true (example_im 0 0) (example_im (5 / 3) (- (22 / 7))) 1000 false true false None 1 true = Ok (nums [x; y] ++ err_out true 1000) /\
     off_by 32 (32 * PI * sqrt 5 * (2 / 1 + 1 / 2) / (4 * 1000)) y (5 / 3) /\ off_by 48 (48 * PI * sqrt 5 * (2 / 1 + 1 / 2) / (4 * 1000)) x (- (22 / 7))).
Proof.
  intros e. assert (A1 : Rabs 1 = 1) by (apply Rabs_right; lra). assert (A2 : Rabs 2 = 2) by (apply Rabs_right; lra). split.
  - destruct (C134_chi2_shift e _ _ ErrNone 1 (UInt 1000) 1 true false 2 true false 512 (11 / 10) false 32 48 1 1000 2000 2000 2 1 0 1 0 (5 / 3) (- (22 / 7)) ltac:(lia) ltac:(lia) ltac:(lra) ltac:(lra)
      (example_samples 0 0) (example_samples (5 / 3) (- (22 / 7))) ltac:(right; cbn; lia) ltac:(left; auto) ltac:(split; [lra|reflexivity]) ltac:(cbn; repeat split; lia) ltac:(lra) ltac:(lra)) as [x [y [rest [E [Y X]]]]].
    cbv beta iota in Y, X. rewrite A1, example_rms in Y, X. exists x, y, rest. auto.
  - destruct (C134_register_images true _ _ 1000 true 1 true 32 48 2 1 0 1 0 (5 / 3) (- (22 / 7)) ltac:(lia) ltac:(lia) ltac:(lra) ltac:(lra) ltac:(lra) ltac:(lra)
      (example_samples 0 0) (example_samples (5 / 3) (- (22 / 7)))) as [x [y [E [Y X]]]].
    rewrite A1, A2, example_rms in Y, X. exists x, y. auto.
Qed.
