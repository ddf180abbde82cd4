(** Lemmas about the 2-D Fourier shift [fshift] and about rolled images *)
From Coq Require Import ZArith Lia List Reals Lra Bool.
From Coquelicot Require Import Complex.
From Verif Require Import Base NDim DFT Kernel Py Spec L_shift L_scale Sum2 Spec2 L_chi2shift.
Import ListNotations.
Open Scope R_scope.

Lemma fshift_ext ny nx f g ty tx i j : (forall y x, (0 <= y < ny)%Z -> (0 <= x < nx)%Z -> f y x = g y x) ->
  fshift ny nx f ty tx i j = fshift ny nx g ty tx i j.
Proof. intros H. apply tiR_ext. intros y Hy. apply inb2' in Hy. destruct Hy as [a [b [-> [Ha Hb]]]]. apply H; auto. Qed.

Lemma tiR_int2 ny nx f y x : (0 < ny)%Z -> (0 < nx)%Z ->
  trig_interpR [ny; nx] (img2 f) [IZR y; IZR x] = f (y mod ny)%Z (x mod nx)%Z.
Proof.
  intros Hy Hx. rewrite <- interpN_realpart by auto using pos2.
  change [IZR y; IZR x] with (toR [y; x]). rewrite interpN_int by auto using pos2. reflexivity.
Qed.

Lemma fshift_int ny nx f dy dx i j : (0 < ny)%Z -> (0 < nx)%Z ->
  fshift ny nx f (IZR dy) (IZR dx) i j = f ((i - dy) mod ny)%Z ((j - dx) mod nx)%Z.
Proof. intros Hy Hx. unfold fshift. rewrite <- !minus_IZR. apply tiR_int2; auto. Qed.

Lemma tiR_period2 ny nx a p q (k l : Z) : (0 < ny)%Z -> (0 < nx)%Z ->
  trig_interpR [ny; nx] a [p + IZR ny * IZR k; q + IZR nx * IZR l] = trig_interpR [ny; nx] a [p; q].
Proof.
  intros Hy Hx. rewrite <- !interpN_realpart by auto using pos2. f_equal.
  apply (interpN_period [ny; nx] (fun y => RtoC (a y)) [p; q] [k; l]); auto using pos2.
Qed.

Lemma fshift_period ny nx f ty tx i j (k l : Z) : (0 < ny)%Z -> (0 < nx)%Z ->
  fshift ny nx f (ty + IZR ny * IZR k) (tx + IZR nx * IZR l) i j = fshift ny nx f ty tx i j.
Proof.
  intros Hy Hx. unfold fshift. rewrite <- (tiR_period2 ny nx (img2 f) (IZR i - ty) (IZR j - tx) (- k) (- l)) by auto.
  f_equal. rewrite !opp_IZR. f_equal; [|f_equal]; ring.
Qed.

Lemma fshift_mod ny nx f ty tx i j : (0 < ny)%Z -> (0 < nx)%Z ->
  fshift ny nx f ty tx (i mod ny) (j mod nx) = fshift ny nx f ty tx i j.
Proof.
  intros Hy Hx. unfold fshift. rewrite <- (tiR_period2 ny nx (img2 f) (IZR (i mod ny) - ty) (IZR (j mod nx) - tx) (i / ny) (j / nx)) by auto.
  f_equal. assert (E1 := Z.div_mod i ny ltac:(lia)). assert (E2 := Z.div_mod j nx ltac:(lia)).
  apply (f_equal IZR) in E1, E2. rewrite plus_IZR, mult_IZR in E1, E2. f_equal; [|f_equal]; lra.
Qed.

(** composing with a whole-pixel shift *)
Lemma fshift_add_int ny nx f ty tx dy dx i j : fshift ny nx f (ty - IZR dy) (tx - IZR dx) i j = fshift ny nx f ty tx (i + dy) (j + dx).
Proof. unfold fshift. rewrite !plus_IZR. f_equal. f_equal; [|f_equal]; ring. Qed.

(** *** a real Fourier shift that leaves the image unchanged; uniqueness criterion *)
Lemma dft_shifted sh a t k : pos_shape sh -> length t = length sh -> inb sh k ->
  dft sh (shifted sh a t 0) k = Cmult (dft sh a k) (cis (- (2 * PI * fdot sh k t))).
Proof.
  intros Hp Ht Hk.
  assert (E := dft_idft sh (fun k => Cmult (dft sh a k) (cis (- (2 * PI * fdot sh k t)))) k Hp (inb_length _ _ Hk)).
  cbv beta in E. rewrite modl_small in E by auto. rewrite <- E. apply dft_ext. intros x Hx. rewrite idft_dft_kernel; auto.
  - unfold shifted. rewrite Ropp_0, cis_0, Cmult_1_l. reflexivity.
  - apply inb_length; auto.
Qed.

Lemma fixed_complex ny nx f ty tx : (0 < ny)%Z -> (0 < nx)%Z ->
  (forall y x, (0 <= y < ny)%Z -> (0 <= x < nx)%Z -> fshift ny nx f ty tx y x = f y x) ->
  forall y, inb [ny; nx] y -> shifted [ny; nx] (fun y => RtoC (img2 f y)) [ty; tx] 0 y = RtoC (img2 f y).
Proof.
  intros Hy Hx H y Hin. assert (Hp := pos2 ny nx Hy Hx).
  set (S := shifted [ny; nx] (fun y => RtoC (img2 f y)) [ty; tx] 0) in *.
  assert (E := shifted_energy [ny; nx] (fun y => RtoC (img2 f y)) [ty; tx] 0 Hp eq_refl). fold S in E.
  assert (Esq : forall z, Cmod z ^ 2 = (Re z) ^ 2 + (Im z) ^ 2).
  { intros z. unfold Cmod, Re, Im. rewrite <- (Rsqr_pow2 (sqrt _)), Rsqr_sqrt by nra. ring. }
  assert (HRe : forall z, inb [ny; nx] z -> Re (S z) = img2 f z).
  { intros z Hz. apply inb2' in Hz. destruct Hz as [i [j [-> [Hi Hj]]]]. unfold S. rewrite <- fshift_shifted by auto. rewrite H by auto. reflexivity. }
  assert (E2 : sumNR [ny; nx] (fun z => (Im (S z)) ^ 2) = 0).
  { rewrite (sumNR_ext _ (fun z => (Im (S z)) ^ 2) (fun z => Cmod (S z) ^ 2 - Cmod (RtoC (img2 f z)) ^ 2)).
    - rewrite sumNR_minus, E. ring.
    - intros z Hz. rewrite !Esq, HRe by auto. unfold Re, Im. simpl. ring. }
  assert (E3 := sumNR_nonneg_0 [ny; nx] (fun z => (Im (S z)) ^ 2) ltac:(intros; apply pow2_ge_0) E2 y Hin). cbv beta in E3.
  apply C_eq_ReIm; [rewrite HRe by auto; reflexivity|]. simpl in E3. rewrite Rmult_1_r in E3. apply Rsqr_0_uniq in E3. exact E3.
Qed.

Lemma no_symmetry_criterion ny nx f : (3 <= ny)%Z -> (3 <= nx)%Z ->
  dft [ny; nx] (fun y => RtoC (img2 f y)) [1; 0]%Z <> RtoC 0 -> dft [ny; nx] (fun y => RtoC (img2 f y)) [0; 1]%Z <> RtoC 0 ->
  no_real_symmetry ny nx f.
Proof.
  intros Hy Hx F1 F2 ty tx H. assert (Hp : pos_shape [ny; nx]) by (apply pos2; lia).
  assert (Hf := fixed_complex ny nx f ty tx ltac:(lia) ltac:(lia) H).
  assert (Q : forall k, inb [ny; nx] k -> dft [ny; nx] (fun y => RtoC (img2 f y)) k <> RtoC 0 -> exists m : Z, fdot [ny; nx] k [ty; tx] = IZR m).
  { intros k Hk Hnz. assert (E := dft_shifted [ny; nx] (fun y => RtoC (img2 f y)) [ty; tx] k Hp eq_refl Hk).
    rewrite (dft_ext [ny; nx] _ (fun y => RtoC (img2 f y))) in E by (intros; apply Hf; auto).
    set (A := dft [ny; nx] (fun y => RtoC (img2 f y)) k) in *.
    assert (E1 : cis (- (2 * PI * fdot [ny; nx] k [ty; tx])) = RtoC 1).
    { replace (cis (- (2 * PI * fdot [ny; nx] k [ty; tx]))) with (Cmult (Cinv A) (Cmult A (cis (- (2 * PI * fdot [ny; nx] k [ty; tx]))))) by (field; auto).
      rewrite <- E. field. auto. }
    replace (- (2 * PI * fdot [ny; nx] k [ty; tx])) with (2 * PI * - fdot [ny; nx] k [ty; tx]) in E1 by ring.
    apply cis_eq_1 in E1. destruct E1 as [m Hm]. exists (- m)%Z. rewrite opp_IZR.
    assert (HPI := PI_RGT_0). apply (Rmult_eq_reg_l (2 * PI)); lra. }
  destruct (Q [1; 0]%Z ltac:(simpl; lia) F1) as [m Hm]. destruct (Q [0; 1]%Z ltac:(simpl; lia) F2) as [l Hl].
  assert (f1 : forall n, (3 <= n)%Z -> fftfreq n 1 = / IZR n).
  { intros n Hn. unfold fftfreq, fidx. destruct (Z.leb_spec 1 ((n - 1) / 2)) as [_|G]; [field; apply IZR_neq0; lia|].
    exfalso. Z.to_euclidean_division_equations; lia. }
  assert (f0 : forall n, (3 <= n)%Z -> fftfreq n 0 = 0).
  { intros n Hn. unfold fftfreq. rewrite fidx_0 by lia. field. apply IZR_neq0; lia. }
  cbn [fdot] in Hm, Hl. rewrite f1, f0 in Hm by auto. rewrite f1, f0 in Hl by auto.
  exists m, l. assert (IZR ny <> 0) by (apply IZR_neq0; lia). assert (IZR nx <> 0) by (apply IZR_neq0; lia).
  split; [rewrite <- Hm|rewrite <- Hl]; field; auto.
Qed.

(** *** rolled images *)
Lemma prep_roll zm a b ny nx dy dx y x : is_roll a b ny nx dy dx -> (0 < ny)%Z -> (0 < nx)%Z -> (0 <= y < ny)%Z -> (0 <= x < nx)%Z ->
  prep zm b ny nx y x = prep zm a ny nx ((y - dy) mod ny) ((x - dx) mod nx).
Proof.
  intros [H1 [H2 H]] Hy Hx HY HX. unfold prep. rewrite H by auto.
  destruct (get a [(y - dy) mod ny; (x - dx) mod nx]%Z) as [r|]; [|reflexivity]. destruct zm; [|reflexivity].
  assert (E1 : pixel_sum ny nx (px b) = pixel_sum ny nx (px a)).
  { change (pixel_sum ny nx) with (sum2 ny nx). rewrite <- (sum2_shift ny nx (px a) (- dy) (- dx)) by auto.
    apply sum2_ext. intros i j Hi Hj. unfold px. rewrite H by auto. reflexivity. }
  assert (E2 : valid_count b ny nx = valid_count a ny nx).
  { unfold valid_count. change (pixel_sum ny nx) with (sum2 ny nx).
    rewrite <- (sum2_shift ny nx (fun i j => match get a [i; j] with Fin _ => 1 | NaN => 0 end) (- dy) (- dx)) by auto.
    apply sum2_ext. intros i j Hi Hj. rewrite H by auto. reflexivity. }
  rewrite E1, E2. reflexivity.
Qed.
