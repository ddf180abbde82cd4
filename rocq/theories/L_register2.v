(** The sub-pixel cross-correlation of an image with a rolled copy peaks at the roll *)
From Coq Require Import ZArith Lia List Reals Lra Bool.
From Coquelicot Require Import Complex.
From Verif Require Import Base NDim DFT Kernel Num Py M_fast_ffts M_shift M_upsample Arg M_chi2 M_xcorr M_register
  Spec L_shift L_scale L_upsample Sum2 Spec2 Spec3 Spec4 L_chi2 L_chi2shift L_fshift L_xcorr P_xcorr L_register.
Import ListNotations.
Open Scope R_scope.

Lemma trig_period2 ny nx (a : list Z -> R) p q (k l : Z) : (0 < ny)%Z -> (0 < nx)%Z ->
  trig_interp [ny; nx] (fun y => RtoC (a y)) [p + IZR ny * IZR k; q + IZR nx * IZR l] = trig_interp [ny; nx] (fun y => RtoC (a y)) [p; q].
Proof.
  intros Hy Hx. rewrite <- (Cconj_inv (trig_interp _ _ [p; q])), <- (Cconj_inv (trig_interp _ _ [p + _; _])).
  f_equal. rewrite <- !interpN_real by auto using pos2.
  apply (interpN_period [ny; nx] (fun y => RtoC (a y)) [p; q] [k; l]); auto using pos2.
Qed.
Lemma cshift_mod ny nx f ty tx i j : (0 < ny)%Z -> (0 < nx)%Z ->
  cshift ny nx f ty tx (i mod ny) (j mod nx) = cshift ny nx f ty tx i j.
Proof.
  intros Hy Hx. unfold cshift. rewrite <- (trig_period2 ny nx (img2 f) (IZR (i mod ny) - ty) (IZR (j mod nx) - tx) (i / ny) (j / nx)) by auto.
  f_equal. assert (E1 := Z.div_mod i ny ltac:(lia)). assert (E2 := Z.div_mod j nx ltac:(lia)).
  apply (f_equal IZR) in E1, E2. rewrite plus_IZR, mult_IZR in E1, E2. f_equal; [|f_equal]; lra.
Qed.
Lemma cshift_int ny nx f s t i j : (0 < ny)%Z -> (0 < nx)%Z ->
  cshift ny nx f (IZR s) (IZR t) i j = RtoC (f ((i - s) mod ny)%Z ((j - t) mod nx)%Z).
Proof.
  intros Hy Hx. rewrite <- cshift_mod by auto.
  assert (0 <= i mod ny < ny)%Z by (apply Z.mod_pos_bound; auto). assert (0 <= j mod nx < nx)%Z by (apply Z.mod_pos_bound; auto).
  rewrite <- cshift_shifted by auto. change [IZR s; IZR t] with (toR [s; t]).
  rewrite shifted_int by (auto using pos2; apply inb2_intro; auto). rewrite Ropp_0, cis_0, Cmult_1_l.
  unfold roll_src. cbn [modl subl zipw img2]. rewrite !Zminus_mod_idemp_l. reflexivity.
Qed.
Lemma rcc_int ny nx f g s t : (0 < ny)%Z -> (0 < nx)%Z -> rcc ny nx f g (IZR s) (IZR t) = RtoC (ccf ny nx f g s t).
Proof.
  intros Hy Hx. unfold rcc, ccf, pixel_sum. 
  assert (E : forall n (h : Z -> R), sumC n (fun i => RtoC (h i)) = RtoC (sumR n h)) by (intros n h; exact (sumNC_RtoC [n] (fun l => match l with [i] => h i | _ => 0 end))).
  rewrite <- E. apply sumC_ext. intros i Hi. rewrite <- E. apply sumC_ext. intros j Hj. rewrite cshift_int by auto. rewrite <- RtoC_mult. reflexivity.
Qed.

Lemma cshift_add_int ny nx f ty tx dy dx i j : cshift ny nx f (ty - IZR dy) (tx - IZR dx) i j = cshift ny nx f ty tx (i + dy) (j + dx).
Proof. unfold cshift. rewrite !plus_IZR. f_equal. f_equal; [|f_equal]; ring. Qed.

(** rcc only depends on the shift modulo whole periods *)
Lemma rcc_period ny nx f g ty tx sy sx : (0 < ny)%Z -> (0 < nx)%Z -> whole_period ny (ty - sy) -> whole_period nx (tx - sx) ->
  rcc ny nx f g ty tx = rcc ny nx f g sy sx.
Proof.
  intros Hy Hx Py Px. rewrite <- (Ropp_involutive ty), <- (Ropp_involutive tx), <- (Ropp_involutive sy), <- (Ropp_involutive sx).
  rewrite <- !rcc_fourier by auto. f_equal. apply sumNC_ext. intros k Hk. f_equal. apply inb2 in Hk. destruct Hk as [a [b [-> [Ha Hb]]]].
  cbn [fdot].
  assert (G : forall n k t s, (0 < n)%Z -> (0 <= k < n)%Z -> whole_period n (t - s) -> exists m : Z, fftfreq n k * - t = fftfreq n k * - s + IZR m).
  { intros n k t s Hn Hk [E|[q E]].
    - exists 0%Z. subst n. replace k with 0%Z by lia. unfold fftfreq. rewrite fidx_0 by lia. field.
    - exists (- (fidx n k * q))%Z. replace t with (s + IZR q * IZR n) by lra. unfold fftfreq. rewrite opp_IZR, mult_IZR. field. apply IZR_neq0; lia. }
  destruct (G ny a ty sy Hy Ha Py) as [m1 E1]. destruct (G nx b tx sx Hx Hb Px) as [m2 E2].
  apply (cis_congr _ _ (m1 + m2)). rewrite E1, E2, plus_IZR. ring.
Qed.

Lemma sqC z : Cmod z ^ 2 = Re z ^ 2 + Im z ^ 2.
Proof. unfold Cmod, Re, Im. rewrite <- (Rsqr_pow2 (sqrt _)), Rsqr_sqrt by nra. reflexivity. Qed.

Section auto.
  Variables (ny nx : Z) (f g : Z -> Z -> R) (dy dx : Z).
  Hypothesis (Hy : (0 < ny)%Z) (Hx : (0 < nx)%Z).
  Hypothesis (Hr : forall y x, (0 <= y < ny)%Z -> (0 <= x < nx)%Z -> g y x = f ((y - dy) mod ny)%Z ((x - dx) mod nx)%Z).

  Lemma energy_roll : sum2 ny nx (fun i j => g i j ^ 2) = sum2 ny nx (fun i j => f i j ^ 2).
  Proof.
    rewrite <- (sum2_shift ny nx (fun i j => f i j ^ 2) (- dy) (- dx)) by auto. apply sum2_ext. intros i j Hi Hj. rewrite Hr by auto. reflexivity.
  Qed.
  Lemma energy_cshift ty tx : sum2 ny nx (fun i j => Cmod (cshift ny nx f ty tx i j) ^ 2) = sum2 ny nx (fun i j => f i j ^ 2).
  Proof.
    assert (E := shifted_energy [ny; nx] (fun y => RtoC (img2 f y)) [ty; tx] 0 (pos2 ny nx Hy Hx) eq_refl).
    rewrite !sum2_sumNR in E.
    rewrite (sum2_ext ny nx _ (fun i j => Cmod (shifted [ny; nx] (fun y => RtoC (img2 f y)) [ty; tx] 0 [i; j]) ^ 2)).
    - rewrite E. apply sum2_ext. intros i j Hi Hj. cbn [img2]. rewrite Cmod_R, pow2_abs. reflexivity.
    - intros i j Hi Hj. rewrite cshift_shifted by auto. reflexivity.
  Qed.
  Let E0 := sum2 ny nx (fun i j => f i j ^ 2).

  Lemma rcc_at_roll : rcc ny nx f g (IZR dy) (IZR dx) = RtoC E0.
  Proof.
    rewrite rcc_int by auto. f_equal. rewrite (ccf_roll ny nx f g dy dx) by auto. rewrite !Z.sub_diag. unfold ccf, E0.
    apply sum2_ext. intros i j Hi Hj. rewrite !Z.sub_0_r, !Z.mod_small by auto. ring.
  Qed.

  (** sum |S - c g|^2 = E - 2 Re(conj c z) + |c|^2 E *)
  Lemma gap ty tx (c : C) : let z := rcc ny nx f g ty tx in
    sum2 ny nx (fun i j => Cmod (Cminus (cshift ny nx f ty tx i j) (Cmult c (RtoC (g i j)))) ^ 2) =
    E0 - 2 * (Re c * Re z + Im c * Im z) + Cmod c ^ 2 * E0.
  Proof.
    cbv zeta.
    rewrite (sum2_ext ny nx _ (fun i j => Cmod (cshift ny nx f ty tx i j) ^ 2 - 2 * (Re c * (Re (cshift ny nx f ty tx i j) * g i j) + Im c * (Im (cshift ny nx f ty tx i j) * g i j)) + Cmod c ^ 2 * g i j ^ 2)).
    2:{ intros i j Hi Hj. rewrite !sqC. destruct (cshift ny nx f ty tx i j) as [a b], c as [p q]. unfold Re, Im. cbn. ring. }
    rewrite sum2_plus, sum2_minus, energy_cshift, !sum2_scal, sum2_plus, !sum2_scal, energy_roll. fold E0.
    assert (R1 : Re (rcc ny nx f g ty tx) = sum2 ny nx (fun i j => Re (cshift ny nx f ty tx i j) * g i j)).
    { unfold rcc, sum2. rewrite Re_sumC. apply sumR_ext. intros i Hi. rewrite Re_sumC. apply sumR_ext. intros j Hj. unfold Re. cbn. ring. }
    assert (R2 : Im (rcc ny nx f g ty tx) = sum2 ny nx (fun i j => Im (cshift ny nx f ty tx i j) * g i j)).
    { unfold rcc, sum2. rewrite Im_sumC. apply sumR_ext. intros i Hi. rewrite Im_sumC. apply sumR_ext. intros j Hj. unfold Im. cbn. ring. }
    rewrite R1, R2. ring.
  Qed.

  Lemma E0_nonneg : 0 <= E0.
  Proof. apply sum2_nonneg. intros. apply pow2_ge_0. Qed.

  Lemma rcc_le ty tx : Cmod (rcc ny nx f g ty tx) <= E0.
  Proof.
    set (z := rcc ny nx f g ty tx). assert (P := E0_nonneg).
    assert (G : forall c, 0 <= E0 - 2 * (Re c * Re z + Im c * Im z) + Cmod c ^ 2 * E0).
    { intros c. unfold z. rewrite <- gap. apply sum2_nonneg. intros. apply pow2_ge_0. }
    assert (Z := Cmod_ge_0 z). destruct (Rle_lt_or_eq_dec 0 E0 P) as [L|L].
    - specialize (G (Cmult (RtoC (/ E0)) z)). rewrite Cmod_mult, Cmod_R, Rabs_right in G by (left; apply Rinv_0_lt_compat; auto).
      assert (EE : Re (Cmult (RtoC (/ E0)) z) * Re z + Im (Cmult (RtoC (/ E0)) z) * Im z = / E0 * Cmod z ^ 2).
      { rewrite sqC. unfold Re, Im. cbn. ring. }
      rewrite EE in G. replace (E0 - 2 * (/ E0 * Cmod z ^ 2) + (/ E0 * Cmod z) ^ 2 * E0) with (/ E0 * (E0 ^ 2 - Cmod z ^ 2)) in G by (field; lra).
      assert (H : 0 <= E0 ^ 2 - Cmod z ^ 2).
      { apply (Rmult_le_reg_l (/ E0)); [apply Rinv_0_lt_compat; auto|]. lra. }
      apply Rnot_lt_le. intros Q. nra.
    - specialize (G (z)). rewrite <- L in G. assert (0 <= - 2 * Cmod z ^ 2) by (rewrite sqC; lra). nra.
  Qed.

  Lemma rcc_strict ty tx : no_phase_symmetry ny nx f -> ~ (whole_period ny (ty - IZR dy) /\ whole_period nx (tx - IZR dx)) ->
    Cmod (rcc ny nx f g ty tx) < Cmod (rcc ny nx f g (IZR dy) (IZR dx)).
  Proof.
    intros Hn Hw. rewrite rcc_at_roll, Cmod_R, Rabs_right by (apply Rle_ge, E0_nonneg).
    destruct (Rle_lt_or_eq_dec _ _ (rcc_le ty tx)) as [L|L]; [exact L|]. exfalso. apply Hw.
    set (z := rcc ny nx f g ty tx) in *.
    assert (A : exists c, Cmod c = 1 /\ sum2 ny nx (fun i j => Cmod (Cminus (cshift ny nx f ty tx i j) (Cmult c (RtoC (g i j)))) ^ 2) = 0).
    { destruct (Req_EM_T E0 0) as [E|E].
      - exists (RtoC 1). rewrite Cmod_R, Rabs_R1. split; [reflexivity|]. rewrite gap. fold z. rewrite E in L |- *. apply Cmod_eq_0 in L. rewrite L. cbn. ring.
      - exists (Cmult (RtoC (/ E0)) z). assert (P := E0_nonneg). rewrite Cmod_mult, Cmod_R, Rabs_right by (left; apply Rinv_0_lt_compat; lra).
        rewrite L. split; [field; auto|]. rewrite gap. fold z. rewrite Cmod_mult, Cmod_R, Rabs_right by (left; apply Rinv_0_lt_compat; lra).
        assert (EE : Re (Cmult (RtoC (/ E0)) z) * Re z + Im (Cmult (RtoC (/ E0)) z) * Im z = / E0 * Cmod z ^ 2).
        { rewrite sqC. unfold Re, Im. cbn. ring. }
        rewrite EE, L. field. auto. }
    destruct A as [c [Hc H0]]. apply (Hn _ _ c Hc). intros y x HY HX. rewrite cshift_add_int, <- cshift_mod by auto.
    assert (HY' : (0 <= (y + dy) mod ny < ny)%Z) by (apply Z.mod_pos_bound; auto). assert (HX' : (0 <= (x + dx) mod nx < nx)%Z) by (apply Z.mod_pos_bound; auto).
    assert (W := sum2_nonneg_0 ny nx (fun i j => Cmod (Cminus (cshift ny nx f ty tx i j) (Cmult c (RtoC (g i j)))) ^ 2) ltac:(intros; apply pow2_ge_0) H0 _ _ HY' HX'). cbv beta in W.
    simpl in W. rewrite Rmult_1_r in W. apply Rsqr_0_uniq in W. apply Cmod_eq_0 in W.
    rewrite Hr in W by auto.
    assert (M : forall n a d, (0 <= a < n)%Z -> (((a + d) mod n - d) mod n = a)%Z).
    { intros n a d Ha. rewrite Zminus_mod_idemp_l. replace (a + d - d)%Z with a by lia. apply Z.mod_small; auto. }
    rewrite !M in W by auto. 
    replace (cshift ny nx f ty tx ((y + dy) mod ny) ((x + dx) mod nx)) with
      (Cplus (Cminus (cshift ny nx f ty tx ((y + dy) mod ny) ((x + dx) mod nx)) (Cmult c (RtoC (f y x)))) (Cmult c (RtoC (f y x)))) by ring.
    rewrite W. ring.
  Qed.
End auto.

(** a sufficient condition: three frequencies are present *)
Lemma no_phase_symmetry_criterion ny nx f : (3 <= ny)%Z -> (3 <= nx)%Z ->
  let F := dft [ny; nx] (fun y => RtoC (img2 f y)) in
  F [1; 0]%Z <> RtoC 0 -> F [0; 1]%Z <> RtoC 0 -> F [1; 1]%Z <> RtoC 0 -> no_phase_symmetry ny nx f.
Proof.
  intros Hy Hx F F1 F2 F3 ty tx c Hc H. assert (Hp : pos_shape [ny; nx]) by (apply pos2; lia).
  assert (Q : forall k, inb [ny; nx] k -> F k <> RtoC 0 -> cis (- (2 * PI * fdot [ny; nx] k [ty; tx])) = c).
  { intros k Hk Hnz. assert (E := dft_shifted [ny; nx] (fun y => RtoC (img2 f y)) [ty; tx] k Hp eq_refl Hk).
    rewrite (dft_ext [ny; nx] _ (fun y => Cmult c (RtoC (img2 f y)))) in E.
    2:{ intros i Hi. apply inb2 in Hi. destruct Hi as [a [b [-> [Ha Hb]]]]. rewrite cshift_shifted by lia. apply H; auto. }
    assert (E' : dft [ny; nx] (fun y => Cmult c (RtoC (img2 f y))) k = Cmult c (F k)).
    { unfold F, dft. rewrite <- sumNC_scal. apply sumNC_ext. intros; ring. }
    rewrite E' in E. fold F in E. 
    replace (cis (- (2 * PI * fdot [ny; nx] k [ty; tx]))) with (Cmult (Cinv (F k)) (Cmult (F k) (cis (- (2 * PI * fdot [ny; nx] k [ty; tx]))))) by (field; auto).
    rewrite <- E. field. auto. }
  assert (D : forall k l, inb [ny; nx] k -> inb [ny; nx] l -> F k <> RtoC 0 -> F l <> RtoC 0 -> exists m : Z, fdot [ny; nx] k [ty; tx] - fdot [ny; nx] l [ty; tx] = IZR m).
  { intros k l Hk Hl Nk Nl. assert (A := Q k Hk Nk). assert (B := Q l Hl Nl).
    assert (E1 : cis (2 * PI * (fdot [ny; nx] k [ty; tx] - fdot [ny; nx] l [ty; tx])) = RtoC 1).
    { replace (2 * PI * (fdot [ny; nx] k [ty; tx] - fdot [ny; nx] l [ty; tx])) with (2 * PI * fdot [ny; nx] k [ty; tx] + - (2 * PI * fdot [ny; nx] l [ty; tx])) by ring.
      rewrite cis_plus, B, <- A. apply cis_mult_opp. }
    apply cis_eq_1 in E1. destruct E1 as [m Hm]. exists m. assert (HPI := PI_RGT_0). apply (Rmult_eq_reg_l (2 * PI)); lra. }
  assert (f1 : forall n, (3 <= n)%Z -> fftfreq n 1 = / IZR n).
  { intros n Hn. unfold fftfreq, fidx. destruct (Z.leb_spec 1 ((n - 1) / 2)) as [_|G]; [field; apply IZR_neq0; lia|].
    exfalso. Z.to_euclidean_division_equations; lia. }
  assert (f0 : forall n, (3 <= n)%Z -> fftfreq n 0 = 0).
  { intros n Hn. unfold fftfreq. rewrite fidx_0 by lia. field. apply IZR_neq0; lia. }
  assert (I1 : inb [ny; nx] [1; 0]%Z) by (apply inb2_intro; lia). assert (I2 : inb [ny; nx] [0; 1]%Z) by (apply inb2_intro; lia).
  assert (I3 : inb [ny; nx] [1; 1]%Z) by (apply inb2_intro; lia).
  destruct (D [1; 1]%Z [0; 1]%Z I3 I2 F3 F2) as [m Hm]. destruct (D [1; 1]%Z [1; 0]%Z I3 I1 F3 F1) as [l Hl].
  cbn [fdot] in Hm, Hl. rewrite !f1, !f0 in Hm by auto. rewrite !f1, !f0 in Hl by auto.
  assert (IZR ny <> 0) by (apply IZR_neq0; lia). assert (IZR nx <> 0) by (apply IZR_neq0; lia).
  split; right; [exists m; rewrite <- Hm|exists l; rewrite <- Hl]; field; auto.
Qed.
