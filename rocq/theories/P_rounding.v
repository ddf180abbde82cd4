(** C103: what a floating-point FFT can change *)
From Coq Require Import ZArith Lia List Reals Lra Bool.
From Coquelicot Require Import Complex.
From Verif Require Import Base NDim DFT Kernel Num Py M_fast_ffts M_shift M_convolve M_correlate Arg M_chi2 M_xcorr M_register M_rounding
  Spec L_shift L_scale L_upsample L_convolve Sum2 Spec2 Spec3 Spec4 L_correlate L_chi2 L_register L_register2 L_register3
  L_chi2shift L_fshift L_xcorr P_xcorr P_xcorr2 P_xcorr3 P_chi2map P_chi2shift P_register P_noise.
Import ListNotations.
Open Scope R_scope.

(** sum of the absolute values of an array's entries *)
Definition l1 (sh : list Z) (a : list Z -> C) : R := sumNR sh (fun i => Cmod (a i)).
(** On arrays of shape [sh] the two transforms are off by at most eps times the largest value a transform of such an
    array can have, and products by at most a factor 1 + eps. *)
Definition accurate (eps : R) (sh : list Z) (A : arith) : Prop :=
  0 <= eps /\
  (forall a, shape a = sh -> shape (ar_fft A a) = sh /\
     forall k, inb sh k -> Cmod (Cminus (get (ar_fft A a) k) (dft sh (get a) k)) <= eps * l1 sh (get a)) /\
  (forall a, shape a = sh -> shape (ar_ifft A a) = sh /\
     forall x, inb sh x -> Cmod (Cminus (get (ar_ifft A a) x) (idft sh (get a) x)) <= eps * (l1 sh (get a) / IZR (prodZ sh))) /\
  forall z w, Cmod (Cminus (ar_mul A z w) (Cmult z w)) <= eps * (Cmod z * Cmod w).
(** sum of the absolute values of the valid pixels *)
Definition abs_sum (a : arr num) : R := sumNR (shape a) (fun i => Rabs (nan0 (get a i))).
(** the shape in which two images are transformed *)
Definition padded (b : boundary) (s1 s2 : list Z) : list Z :=
  match b with BWrap => zipw Z.max s1 s2 | _ => newshape true true s1 s2 end.

Lemma l1_nonneg sh a : 0 <= l1 sh a.
Proof. apply sumNR_nonneg. intros. apply Cmod_ge_0. Qed.
Lemma dft_le sh a k : Cmod (dft sh a k) <= l1 sh a.
Proof.
  unfold dft, l1. refine (Rle_trans _ _ _ (Cmod_sumNC _ _) _). right. apply sumNR_ext. intros i _. rewrite Cmod_mult, Cmod_cis. ring.
Qed.
Lemma l1_ext sh a b : (forall i, inb sh i -> a i = b i) -> l1 sh a = l1 sh b.
Proof. intros H. apply sumNR_ext. intros. rewrite H; auto. Qed.
Lemma l1_le_const sh a M : pos_shape sh -> (forall i, inb sh i -> Cmod (a i) <= M) -> l1 sh a <= IZR (prodZ sh) * M.
Proof. intros Hp H. rewrite <- sumNR_const by auto. apply sumNR_le. auto. Qed.
Lemma idft_diff sh p q d x : pos_shape sh -> (forall k, inb sh k -> Cmod (Cminus (p k) (q k)) <= d) ->
  Cmod (Cminus (idft sh p x) (idft sh q x)) <= d.
Proof.
  intros Hp H. assert (P := prodZ_pos sh Hp). assert (P' : 0 < IZR (prodZ sh)) by (apply IZR_lt; lia).
  unfold idft. replace (Cminus (Cmult (RtoC (/ IZR (prodZ sh))) (sumNC sh (fun k => Cmult (p k) (cis (2 * PI * phZ sh k x)))))
    (Cmult (RtoC (/ IZR (prodZ sh))) (sumNC sh (fun k => Cmult (q k) (cis (2 * PI * phZ sh k x))))))
    with (Cmult (RtoC (/ IZR (prodZ sh))) (sumNC sh (fun k => Cmult (Cminus (p k) (q k)) (cis (2 * PI * phZ sh k x))))).
  2:{ rewrite (sumNC_ext sh (fun k => Cmult (Cminus (p k) (q k)) (cis (2 * PI * phZ sh k x))) (fun k => Cminus (Cmult (p k) (cis (2 * PI * phZ sh k x))) (Cmult (q k) (cis (2 * PI * phZ sh k x))))) by (intros; ring).
      rewrite sumNC_minus. ring. }
  rewrite Cmod_mult, Cmod_R, Rabs_right by (left; apply Rinv_0_lt_compat; exact P').
  apply Rle_trans with (/ IZR (prodZ sh) * (IZR (prodZ sh) * d)); [|right; field; lra].
  apply Rmult_le_compat_l; [left; apply Rinv_0_lt_compat; exact P'|].
  refine (Rle_trans _ _ _ (Cmod_sumNC _ _) _). rewrite <- sumNR_const by auto. apply sumNR_le. intros i Hi. rewrite Cmod_mult, Cmod_cis, Rmult_1_r. auto.
Qed.
Lemma Cmod_near z w d M : Cmod (Cminus z w) <= d -> Cmod w <= M -> Cmod z <= M + d.
Proof. intros H1 H2. replace z with (Cplus w (Cminus z w)) by ring. refine (Rle_trans _ _ _ (Cmod_triangle _ _) _). lra. Qed.

Section Core.
Variables (eps : R) (sh : list Z) (A : arith).
Hypothesis (HA : accurate eps sh A) (Hp : pos_shape sh).
Let e0 : 0 <= eps. Proof. exact (proj1 HA). Qed.

Lemma mul_bound U u V v M N a b : 0 <= M -> 0 <= N -> 0 <= a -> 0 <= b ->
  Cmod (Cminus U u) <= M * a -> Cmod u <= M -> Cmod (Cminus V v) <= N * b -> Cmod v <= N ->
  Cmod (Cminus (ar_mul A U V) (Cmult u v)) <= M * N * ((1 + eps) * ((1 + a) * (1 + b)) - 1).
Proof.
  intros HM HN Ha Hb HU Hu HV Hv. destruct HA as [_ [_ [_ HM']]].
  assert (BU := Cmod_near _ _ _ _ HU Hu). assert (BV := Cmod_near _ _ _ _ HV Hv).
  replace (Cminus (ar_mul A U V) (Cmult u v)) with (Cplus (Cminus (ar_mul A U V) (Cmult U V)) (Cplus (Cmult (Cminus U u) V) (Cmult u (Cminus V v)))) by ring.
  refine (Rle_trans _ _ _ (Cmod_triangle _ _) _).
  assert (T := Cmod_triangle (Cmult (Cminus U u) V) (Cmult u (Cminus V v))). rewrite !Cmod_mult in T.
  assert (Q := HM' U V).
  assert (P0 := Cmod_ge_0 U). assert (P1 := Cmod_ge_0 V). assert (P2 := Cmod_ge_0 (Cminus U u)). assert (P3 := Cmod_ge_0 (Cminus V v)). assert (P4 := Cmod_ge_0 u).
  assert (Q1 : Cmod U * Cmod V <= (M + M * a) * (N + N * b)) by (apply Rmult_le_compat; auto).
  assert (Q2 : Cmod (Cminus U u) * Cmod V <= (M * a) * (N + N * b)) by (apply Rmult_le_compat; auto).
  assert (Q3 : Cmod u * Cmod (Cminus V v) <= M * (N * b)) by (apply Rmult_le_compat; auto).
  assert (Q4 : eps * (Cmod U * Cmod V) <= eps * ((M + M * a) * (N + N * b))) by (apply Rmult_le_compat_l; auto).
  replace (M * N * ((1 + eps) * ((1 + a) * (1 + b)) - 1)) with (eps * ((M + M * a) * (N + N * b)) + (M * a * (N + N * b) + M * (N * b))) by ring. lra.
Qed.
Lemma inv_bound P q M d x : 0 <= M -> 0 <= d -> shape P = sh -> (forall k, inb sh k -> Cmod (Cminus (get P k) (q k)) <= M * d) -> (forall k, inb sh k -> Cmod (q k) <= M) ->
  inb sh x -> Cmod (Cminus (get (ar_ifft A P) x) (idft sh q x)) <= M * ((1 + eps) * (1 + d) - 1).
Proof.
  intros HM Hd HS HP Hq Hx. destruct HA as [_ [_ [HI _]]]. assert (Z := prodZ_pos sh Hp). assert (Z' : 0 < IZR (prodZ sh)) by (apply IZR_lt; lia).
  replace (Cminus (get (ar_ifft A P) x) (idft sh q x)) with (Cplus (Cminus (get (ar_ifft A P) x) (idft sh (get P) x)) (Cminus (idft sh (get P) x) (idft sh q x))) by ring.
  refine (Rle_trans _ _ _ (Cmod_triangle _ _) _).
  assert (B1 := proj2 (HI P HS) x Hx). assert (B2 := idft_diff sh (get P) q (M * d) x Hp HP).
  assert (B3 : l1 sh (get P) / IZR (prodZ sh) <= M + M * d).
  { apply (Rmult_le_reg_l (IZR (prodZ sh))); auto. unfold Rdiv. rewrite (Rmult_comm (l1 _ _)), <- Rmult_assoc, Rinv_r, Rmult_1_l by lra.
    apply l1_le_const; auto. intros k Hk. apply (Cmod_near _ (q k)); auto. }
  assert (B4 : eps * (l1 sh (get P) / IZR (prodZ sh)) <= eps * (M + M * d)) by (apply Rmult_le_compat_l; auto).
  replace (M * ((1 + eps) * (1 + d) - 1)) with (eps * (M + M * d) + M * d) by ring. lra.
Qed.
Lemma fwd_bound a k : shape a = sh -> inb sh k -> Cmod (Cminus (get (ar_fft A a) k) (dft sh (get a) k)) <= l1 sh (get a) * eps /\ Cmod (dft sh (get a) k) <= l1 sh (get a).
Proof. intros Ha Hk. split; [|apply dft_le]. destruct HA as [_ [HF _]]. rewrite Rmult_comm. apply HF; auto. Qed.
End Core.
(** inverse transform of a product of two transforms *)
Lemma product_bound eps sh A A' X Y x (cj : C -> C) : accurate eps sh A -> accurate eps sh A' -> pos_shape sh ->
  shape X = sh -> shape Y = sh -> inb sh x -> (forall z w, Cmod (Cminus (cj z) (cj w)) = Cmod (Cminus z w)) -> (forall z, Cmod (cj z) = Cmod z) ->
  forall P, shape P = sh -> (forall k, inb sh k -> get P k = ar_mul A' (get (ar_fft A X) k) (cj (get (ar_fft A Y) k))) ->
  Cmod (Cminus (get (ar_ifft A' P) x) (idft sh (fun k => Cmult (dft sh (get X) k) (cj (dft sh (get Y) k))) x)) <= l1 sh (get X) * l1 sh (get Y) * ((1 + eps) ^ 4 - 1).
Proof.
  intros HA HA' Hp HX HY Hx C1 C2 P HP EP. assert (e0 := proj1 HA).
  replace (l1 sh (get X) * l1 sh (get Y) * ((1 + eps) ^ 4 - 1)) with (l1 sh (get X) * l1 sh (get Y) * ((1 + eps) * (1 + ((1 + eps) * ((1 + eps) * (1 + eps)) - 1)) - 1)) by ring.
  assert (L1 := l1_nonneg sh (get X)). assert (L2 := l1_nonneg sh (get Y)).
  assert (E1 : 0 <= eps * eps) by (apply Rmult_le_pos; auto). assert (E2 : 0 <= eps * (eps * eps)) by (apply Rmult_le_pos; auto).
  apply inv_bound; auto.
  - apply Rmult_le_pos; auto.
  - replace ((1 + eps) * ((1 + eps) * (1 + eps)) - 1) with (3 * eps + 3 * (eps * eps) + eps * (eps * eps)) by ring. lra.
  - intros k Hk. rewrite EP by auto. destruct (fwd_bound eps sh A HA X k HX Hk) as [F1 F2]. destruct (fwd_bound eps sh A HA Y k HY Hk) as [G1 G2].
    apply (mul_bound eps sh A' HA'); auto; [rewrite C1|rewrite C2]; auto.
  - intros k Hk. rewrite Cmod_mult, C2. apply Rmult_le_compat; try apply Cmod_ge_0; apply dft_le.
Qed.

Lemma re_le_Cmod z : Rabs (Re z) <= Cmod z.
Proof.
  rewrite <- sqrt_Rsqr_abs. unfold Cmod. apply sqrt_le_1_alt. unfold Rsqr, Re. assert (H := Rle_0_sqr (snd z)). unfold Rsqr in H. simpl. lra.
Qed.
(** *** sums over padded arrays *)
Lemma sumNR_window s n N (f : list Z -> R) : fits s n N -> sumNR N (fun W => if inbb n (subl W s) then f (subl W s) else 0) = sumNR n f.
Proof.
  intros H. apply RtoC_inj. rewrite <- !sumNC_RtoC. rewrite <- (sumNC_window s n N _ H). apply sumNC_ext. intros i _. destruct (inbb _ _); reflexivity.
Qed.
Lemma l1_embed N n (f : list Z -> R) : fits (starts N n) n N -> l1 N (embed N n (fun i => RtoC (f i)) (RtoC 0)) = sumNR n (fun i => Rabs (f i)).
Proof.
  intros H. unfold l1. rewrite <- (sumNR_window _ _ _ _ H). apply sumNR_ext. intros i _. unfold embed. destruct (inbb _ _); rewrite Cmod_R; [reflexivity|apply Rabs_R0].
Qed.
Lemma l1_ifftshift N a : pos_shape N -> l1 N (ifftshiftN N a) = l1 N a.
Proof. intros H. unfold l1, ifftshiftN. apply (sumNR_mod_shift N (fun i => Cmod (a i))); auto. rewrite map_length. reflexivity. Qed.
Lemma abs_sum_rev (a r : arr num) ny nx : shape a = [ny; nx] -> rev2 a = Ok r -> shape r = [ny; nx] /\ abs_sum r = abs_sum a.
Proof.
  intros H E. unfold rev2 in E. rewrite H in E. injection E as <-. split; [reflexivity|]. unfold abs_sum. cbn [shape get]. rewrite H, !sum2_sumNR.
  apply (sum2_rev ny nx (fun i j => Rabs (nan0 (get a [i; j])))).
Qed.
Lemma padded_newshape b s1 s2 fp pp : match b with BNone | BFill => Ok (true, true) | BWrap => Ok (false, false) | BExtend => Raise NotImplementedError | BOther => Raise Unmodelled end = Ok (fp, pp) ->
  newshape fp pp s1 s2 = padded b s1 s2.
Proof. destruct b; intros H; inversion H; reflexivity. Qed.

(** the inexact correlation is off by at most the product of the two images' absolute sums times (1 + eps)^4 - 1 *)
Theorem C103_correlate2d :
  forall A eps has_fftw gb im1 im2 b nthreads use_np allow_huge ny nx my mx cc,
  shape im1 = [ny; nx] -> shape im2 = [my; mx] -> (0 < ny)%Z -> (0 < nx)%Z -> (0 < my)%Z -> (0 < mx)%Z ->
  accurate eps (padded b [ny; nx] [my; mx]) A ->
  correlate2d has_fftw gb im1 im2 b nthreads use_np allow_huge = Ok cc ->
  exists cc', correlate2d_with A gb im1 im2 b allow_huge = Ok cc' /\ shape cc' = shape cc /\
    forall k l, (0 <= k < ny)%Z -> (0 <= l < nx)%Z ->
      Rabs (g2 cc' k l - g2 cc k l) <= abs_sum im1 * abs_sum im2 * ((1 + eps) ^ 4 - 1).
Proof.
  intros A eps hf gb im1 im2 b nt np huge ny nx my mx cc H1 H2 Hy Hx Hmy Hmx HA E.
  rewrite <- correlate2d_exact in E. unfold correlate2d_with in *.
  destruct (rev2 im2) as [r|] eqn:ER; [|discriminate]. cbn [bind] in *. destruct (abs_sum_rev im2 r my mx H2 ER) as [Hr SR]. rewrite <- SR.
  unfold convolve_fft_with, ndim in *. rewrite H1, Hr in *. cbn [length Nat.eqb negb] in *.
  assert (OK : shapes_ok [ny; nx] [my; mx]) by (repeat split; auto using pos2).
  destruct (match b with BNone | BFill => Ok (true, true) | BWrap => Ok (false, false) | BExtend => Raise NotImplementedError | BOther => Raise Unmodelled end) as [[fp pp]|] eqn:EB; [|discriminate].
  cbn [bind] in *. destruct (newshape_pos fp pp _ _ OK) as [HpN _].
  assert (Hfa : fits (starts (newshape fp pp [ny; nx] [my; mx]) [ny; nx]) [ny; nx] (newshape fp pp [ny; nx] [my; mx])) by (apply Forall2_fits, newshape_ge_array; auto).
  assert (Hfk : fits (starts (newshape fp pp [ny; nx] [my; mx]) [my; mx]) [my; mx] (newshape fp pp [ny; nx] [my; mx])) by (apply Forall2_fits, newshape_ge_kernel; auto).
  rewrite (padded_newshape b _ _ fp pp EB) in *. set (N := padded b [ny; nx] [my; mx]) in *.
  destruct (negb huge && _); [discriminate|]. rewrite check_fft_ok in * by auto. cbn [bind] in *. injection E as <-.
  eexists. split; [reflexivity|]. split; [reflexivity|]. intros k l Hk Hl. unfold g2, crop_to. cbn [get].
  set (x := addl [k; l] (starts N [ny; nx])). assert (Hxx : inb N x) by (apply (fits_addl _ [ny; nx]); auto; simpl; auto).
  set (X := Arr N (embed N [ny; nx] (fun i => RtoC (nan0 (get im1 i))) (RtoC 0))).
  set (Y := Arr N (ifftshiftN N (embed N [my; mx] (fun i => RtoC (nan0 (get r i))) (RtoC 0)))).
  assert (B := product_bound eps N A A X Y x (fun z => z) HA HA HpN eq_refl eq_refl Hxx (fun z w => eq_refl) (fun z => eq_refl)
    (Arr N (fun k => ar_mul A (get (ar_fft A X) k) (get (ar_fft A Y) k))) eq_refl (fun k _ => eq_refl)).
  assert (LX : l1 N (get X) = abs_sum im1) by (unfold X; cbn [get]; rewrite (l1_embed N [ny; nx] (fun i => nan0 (get im1 i))) by auto; unfold abs_sum; rewrite H1; reflexivity).
  assert (LY : l1 N (get Y) = abs_sum r) by (unfold Y; cbn [get]; rewrite l1_ifftshift by auto; rewrite (l1_embed N [my; mx] (fun i => nan0 (get r i))) by auto; unfold abs_sum; rewrite Hr; reflexivity).
  rewrite LX, LY in B. refine (Rle_trans _ _ _ _ B).
  assert (EQ : get (snd (get_ffts hf nt np) (Arr N (fun k => Cmult (get (fst (get_ffts hf nt np) X) k) (get (fst (get_ffts hf nt np) Y) k)))) x =
    idft N (fun k => Cmult (dft N (get X) k) (dft N (get Y) k)) x).
  { refine (eq_trans (proj2 (get_ffts_inv hf nt np _) x) _). cbn [shape get]. apply idft_ext. intros q Hq. rewrite !(proj2 (get_ffts_fwd hf nt np _)). reflexivity. }
  rewrite <- EQ.
  match goal with |- Rabs (Re ?a - Re ?b) <= _ => change (Re a - Re b) with (Re (Cminus a b)) end. apply re_le_Cmod.
Qed.
Print Assumptions C103_correlate2d.

(** *** shifting *)
(** two results of the same kind and shape, within d of each other in every pixel *)
Definition within_pixelwise (d : R) (a b : anyarr) : Prop :=
  match a, b with
  | RealArr x, RealArr y => shape x = shape y /\ forall i, inb (shape x) i -> Rabs (get x i - get y i) <= d
  | CplxArr x, CplxArr y => shape x = shape y /\ forall i, inb (shape x) i -> Cmod (Cminus (get x i) (get y i)) <= d
  | _, _ => False
  end.
Definition abs_sumC (a : arr cnum) : R := sumNR (shape a) (fun i => Cmod (cnan0 (get a i))).
Lemma Cmod_diff z w : Rabs (Cmod z - Cmod w) <= Cmod (Cminus z w).
Proof.
  assert (T1 := Cmod_triangle (Cminus z w) w). assert (T2 := Cmod_triangle (Cminus w z) z).
  replace (Cplus (Cminus z w) w) with z in T1 by ring. replace (Cplus (Cminus w z) z) with w in T2 by ring.
  replace (Cmod (Cminus w z)) with (Cmod (Cminus z w)) in T2 by (rewrite <- Cmod_opp; f_equal; ring).
  apply Rabs_le. lra.
Qed.
Lemma pick_near d ra rr x y : shape x = shape y -> (forall i, inb (shape x) i -> Cmod (Cminus (get x i) (get y i)) <= d) -> within_pixelwise d (pick ra rr x) (pick ra rr y).
Proof.
  intros HS H. unfold pick. destruct rr; [|destruct ra]; cbn [within_pixelwise amap shape get]; split; auto; intros i Hi.
  - refine (Rle_trans _ _ _ _ (H i Hi)). change (Re (get x i) - Re (get y i)) with (Re (Cminus (get x i) (get y i))). apply re_le_Cmod.
  - refine (Rle_trans _ _ _ (Cmod_diff _ _) (H i Hi)).
Qed.
Theorem C103_shiftnd :
  forall A eps has_fftw data offset phase nthreads use_np ret_abs ret_real r,
  accurate eps (shape data) A ->
  shiftnd has_fftw data offset phase nthreads use_np ret_abs ret_real = Ok r ->
  exists r', shiftnd_with A data offset phase ret_abs ret_real = Ok r' /\
    within_pixelwise (abs_sumC data * ((1 + eps) ^ 3 - 1)) r' r.
Proof.
  intros A eps hf data off ph nt np ra rr r HA E. assert (e0 := proj1 HA). rewrite <- shiftnd_exact in E. unfold shiftnd_with in *.
  destruct (check_freqs _); [|discriminate]. cbn [bind] in *. unfold check_fft in *. destruct (pos_shapeb (shape data)) eqn:EP; [|discriminate]. cbn [bind] in *.
  apply pos_shapeb_spec in EP. injection E as <-. eexists. split; [reflexivity|].
  set (sh := shape data) in *. set (X := clean_nan data). assert (SX : shape X = sh) by reflexivity.
  set (ker := fun k => cis (- (2 * PI * freq_grid off sh k) - ph)).
  assert (SI : forall h, shape (ar_ifft A (Arr sh h)) = sh) by (intros h; apply (proj1 (proj2 (proj2 HA)) (Arr sh h) eq_refl)).
  apply pick_near.
  - rewrite SI. symmetry. exact (proj1 (get_ffts_inv hf nt np _)).
  - rewrite SI. intros i Hi.
    assert (L1 := l1_nonneg sh (get X)).
    assert (B := inv_bound eps sh A HA EP (Arr sh (fun k => ar_mul A (get (ar_fft A X) k) (ker k))) (fun k => Cmult (dft sh (get X) k) (ker k)) (l1 sh (get X)) ((1 + eps) * ((1 + eps) * (1 + 0)) - 1) i).
    match goal with |- Cmod (Cminus _ ?w) <= _ => assert (EQ : w = idft sh (fun k => Cmult (dft sh (get X) k) (ker k)) i) end.
    { refine (eq_trans (proj2 (get_ffts_inv hf nt np _) i) _). cbn [shape get]. apply idft_ext. intros q Hq. cbn [get]. rewrite !(proj2 (get_ffts_fwd hf nt np _)). reflexivity. }
    rewrite EQ.
    refine (Rle_trans _ _ _ (B L1 _ eq_refl _ _ Hi) _).
    + assert (E1 : 0 <= eps * eps) by (apply Rmult_le_pos; auto). lra.
    + intros k Hk. cbn [get]. destruct (fwd_bound eps sh A HA X k SX Hk) as [F1 F2].
      replace (l1 sh (get X) * ((1 + eps) * ((1 + eps) * (1 + 0)) - 1)) with (l1 sh (get X) * 1 * ((1 + eps) * ((1 + eps) * (1 + 0)) - 1)) by ring.
      apply (mul_bound eps sh A HA); auto; try lra.
      * replace (Cminus (ker k) (ker k)) with (RtoC 0) by ring. rewrite Cmod_0. lra.
      * unfold ker. rewrite Cmod_cis. lra.
    + intros k Hk. unfold ker. rewrite Cmod_mult, Cmod_cis, Rmult_1_r. apply dft_le.
    + right. unfold abs_sumC, l1. fold sh. change (sumNR sh (fun i0 => Cmod (get X i0))) with (sumNR sh (fun i0 => Cmod (cnan0 (get data i0)))). ring.
Qed.
Print Assumptions C103_shiftnd.

(** *** chi-squared maps *)
Definition chi2_rounding (eps : R) (zeromean : bool) (err : errarg) (im1 im2 : arr num) (ny nx : Z) : R :=
  let u1 := used_image zeromean err im1 ny nx in let u2 := used_image zeromean err im2 ny nx in
  (2 * (pixel_sum ny nx (fun i j => Rabs (u1 i j)) * pixel_sum ny nx (fun i j => Rabs (u2 i j / sigma_of err i j ^ 2))) +
   match err with ErrArr _ => pixel_sum ny nx (fun i j => u1 i j ^ 2) * pixel_sum ny nx (fun i j => 1 / sigma_of err i j ^ 2) | _ => 0 end)
  * ((1 + eps) ^ 4 - 1).
Lemma abs_sum_fin ny nx (h : list Z -> R) H : (forall i j, (0 <= i < ny)%Z -> (0 <= j < nx)%Z -> Rabs (h [i; j]) = H i j) -> abs_sum (fin_arr [ny; nx] h) = pixel_sum ny nx H.
Proof. intros E. unfold abs_sum. cbn [fin_arr shape get nan0]. rewrite sum2_sumNR. apply sum2_ext. exact E. Qed.
Lemma Ok_inj {A} (a b : A) : Ok a = Ok b -> a = b.
Proof. intros H. injection H. auto. Qed.
Theorem C103_chi2n_map :
  forall A eps e im1 im2 err b nthreads zeromean use_np return_all allow_huge ny nx r,
  shape im1 = [ny; nx] -> shape im2 = [ny; nx] -> (0 < ny)%Z -> (0 < nx)%Z -> accurate eps (padded b [ny; nx] [ny; nx]) A ->
  chi2n_map e im1 im2 err b nthreads zeromean use_np return_all false allow_huge = Ok r ->
  exists r', chi2n_map_with A (e_gb e) im1 im2 err b zeromean return_all false allow_huge = Ok r' /\ shape (chi2_of_res r') = [ny; nx] /\
    forall k l, (0 <= k < ny)%Z -> (0 <= l < nx)%Z ->
      Rabs (g2 (chi2_of_res r') k l - g2 (chi2_of_res r) k l) <= chi2_rounding eps zeromean err im1 im2 ny nx.
Proof.
  intros A eps e im1 im2 err b nt zm np ra huge ny nx r H1 H2 Hy Hx HA E.
  rewrite <- chi2n_map_exact in E. unfold chi2n_map_with in *. rewrite H1, H2 in *.
  destruct (list_eq_dec Z.eq_dec [ny; nx] [ny; nx]) as [_|N]; [|congruence]. cbn [negb] in *.
  set (E0 := exact_arith (e_fftw e) nt np) in *. set (D := (1 + eps) ^ 4 - 1).
  assert (HC : forall x y cc, correlate2d_with E0 (e_gb e) (fin_arr [ny; nx] x) (fin_arr [ny; nx] y) b huge = Ok cc ->
    exists cc', correlate2d_with A (e_gb e) (fin_arr [ny; nx] x) (fin_arr [ny; nx] y) b huge = Ok cc' /\ shape cc' = shape cc /\
      forall k l, (0 <= k < ny)%Z -> (0 <= l < nx)%Z -> Rabs (g2 cc' k l - g2 cc k l) <= abs_sum (fin_arr [ny; nx] x) * abs_sum (fin_arr [ny; nx] y) * D).
  { intros x y cc Ec. unfold E0 in Ec. rewrite correlate2d_exact in Ec.
    exact (C103_correlate2d A eps (e_fftw e) (e_gb e) (fin_arr [ny; nx] x) (fin_arr [ny; nx] y) b nt np huge ny nx ny nx cc eq_refl eq_refl Hy Hx Hy Hx HA Ec). }
  assert (ZM1 : forall i j, (0 <= i < ny)%Z -> (0 <= j < nx)%Z -> nan0 (get (zero_mean zm im1) [i; j]) = prep zm im1 ny nx i j) by (intros; apply zero_mean_prep; auto).
  assert (ZM2 : forall i j, (0 <= i < ny)%Z -> (0 <= j < nx)%Z -> nan0 (get (zero_mean zm im2) [i; j]) = prep zm im2 ny nx i j) by (intros; apply zero_mean_prep; auto).
  destruct err as [|s|er].
  - destruct (correlate2d_with E0 _ _ _ _ _) as [cc|] eqn:Ec; [|discriminate]. destruct (HC _ _ _ Ec) as [cc' [Ec' [_ B]]]. rewrite Ec'. cbn [bind] in *. apply Ok_inj in E; subst r.
    eexists. split; [reflexivity|]. split; [destruct ra; reflexivity|]. intros k l Hk Hl. specialize (B k l Hk Hl).
    rewrite (abs_sum_fin ny nx _ (fun i j => Rabs (used_image zm ErrNone im1 ny nx i j))) in B by (intros; rewrite ZM1 by auto; reflexivity).
    rewrite (abs_sum_fin ny nx _ (fun i j => Rabs (used_image zm ErrNone im2 ny nx i j / sigma_of ErrNone i j ^ 2))) in B by (intros; rewrite ZM2 by auto; reflexivity).
    unfold chi2_rounding. fold D. cbv zeta. unfold g2 in *. destruct ra; cbn [chi2_of_res get amap] in *; (match goal with |- Rabs ?x <= _ => replace x with (-2 * (get cc' [k; l] - get cc [k; l])) by ring end);
    rewrite Rabs_mult, (Rabs_left (-2)) by lra; lra.
  - destruct (Req_EM_T s 0); [discriminate|]. destruct (correlate2d_with E0 _ _ _ _ _) as [cc|] eqn:Ec; [|discriminate]. destruct (HC _ _ _ Ec) as [cc' [Ec' [_ B]]]. rewrite Ec'. cbn [bind] in *. apply Ok_inj in E; subst r.
    eexists. split; [reflexivity|]. split; [destruct ra; reflexivity|]. intros k l Hk Hl. specialize (B k l Hk Hl).
    rewrite (abs_sum_fin ny nx _ (fun i j => Rabs (used_image zm (ErrScalar s) im1 ny nx i j))) in B by (intros; rewrite ZM1 by auto; reflexivity).
    rewrite (abs_sum_fin ny nx _ (fun i j => Rabs (used_image zm (ErrScalar s) im2 ny nx i j / sigma_of (ErrScalar s) i j ^ 2))) in B by (intros; rewrite ZM2 by auto; reflexivity).
    unfold chi2_rounding. fold D. cbv zeta. unfold g2 in *. destruct ra; cbn [chi2_of_res get amap] in *; (match goal with |- Rabs ?x <= _ => replace x with (-2 * (get cc' [k; l] - get cc [k; l])) by ring end);
    rewrite Rabs_mult, (Rabs_left (-2)) by lra; lra.
  - destruct (list_eq_dec Z.eq_dec (shape er) [ny; nx]) as [Hs|]; [|discriminate]. cbn [negb] in *.
    match type of E with bind ?X _ = _ => destruct X as [t3|] eqn:Et; [|discriminate] end. destruct (HC _ _ _ Et) as [t3' [Et' [_ B3]]]. rewrite Et'. cbn [bind] in *.
    match type of E with bind ?X _ = _ => destruct X as [cc|] eqn:Ec; [|discriminate] end. destruct (HC _ _ _ Ec) as [cc' [Ec' [_ B]]]. rewrite Ec'. cbn [bind] in *. apply Ok_inj in E; subst r.
    eexists. split; [reflexivity|]. split; [destruct ra; reflexivity|]. intros k l Hk Hl. specialize (B k l Hk Hl). specialize (B3 k l Hk Hl).
    assert (PX : forall i j, nan0 (get er [i; j]) = px er i j) by (intros; unfold px; destruct (get er [i; j]); reflexivity).
    assert (SQ : forall x, Rabs (x ^ 2) = x ^ 2) by (intros; apply Rabs_right, Rle_ge, pow2_ge_0).
    assert (IV : forall x, Rabs (1 / x ^ 2) = 1 / x ^ 2).
    { intros x. apply Rabs_right, Rle_ge. unfold Rdiv. rewrite Rmult_1_l. destruct (Req_EM_T (x ^ 2) 0) as [->|NZ].
      - rewrite Rinv_0. lra.
      - left. apply Rinv_0_lt_compat. assert (Q := pow2_ge_0 x). lra. }
    rewrite (abs_sum_fin ny nx _ (fun i j => Rabs (used_image zm (ErrArr er) im1 ny nx i j))) in B
      by (intros; unfold used_image, err_zero; rewrite PX, ZM1 by auto; destruct (Req_EM_T (px er i j) 0); reflexivity).
    rewrite (abs_sum_fin ny nx _ (fun i j => Rabs (used_image zm (ErrArr er) im2 ny nx i j / sigma_of (ErrArr er) i j ^ 2))) in B
      by (intros; unfold used_image, sigma_of, err_zero; rewrite PX, ZM2 by auto; destruct (Req_EM_T (px er i j) 0); reflexivity).
    rewrite (abs_sum_fin ny nx _ (fun i j => used_image zm (ErrArr er) im1 ny nx i j ^ 2)) in B3
      by (intros; rewrite SQ; unfold used_image, err_zero; rewrite PX, ZM1 by auto; destruct (Req_EM_T (px er i j) 0); reflexivity).
    rewrite (abs_sum_fin ny nx _ (fun i j => 1 / sigma_of (ErrArr er) i j ^ 2)) in B3
      by (intros; rewrite IV; unfold sigma_of, err_zero; rewrite PX; destruct (Req_EM_T (px er i j) 0); reflexivity).
    unfold chi2_rounding. fold D. cbv zeta. unfold g2 in *. destruct ra; cbn [chi2_of_res get amap] in *;
    (match goal with |- Rabs ?x <= _ => replace x with (-2 * (get cc' [k; l] - get cc [k; l]) + (get t3' [k; l] - get t3 [k; l])) by ring end);
    (refine (Rle_trans _ _ _ (Rabs_triang _ _) _); rewrite Rabs_mult, (Rabs_left (-2)) by lra; lra).
Qed.
Print Assumptions C103_chi2n_map.

(** minima of two maps that differ by at most d *)
Lemma near_argmin ny nx (f f' : Z -> Z -> R) d : (0 < ny)%Z -> (0 < nx)%Z -> (forall i j, (0 <= i < ny)%Z -> (0 <= j < nx)%Z -> Rabs (f' i j - f i j) <= d) ->
  let p := argmin2 ny nx f' in (0 <= fst p < ny)%Z /\ (0 <= snd p < nx)%Z /\ forall i j, (0 <= i < ny)%Z -> (0 <= j < nx)%Z -> f (fst p) (snd p) <= f i j + 2 * d.
Proof.
  intros Hy Hx H. destruct (argmin2_spec ny nx f' Hy Hx) as [A [B [M _]]]. cbv zeta. split; [exact A|]. split; [exact B|]. intros i j Hi Hj.
  specialize (M i j Hi Hj). assert (P := H _ _ A B). assert (Q := H i j Hi Hj).
  set (a := f' (fst (argmin2 ny nx f')) (snd (argmin2 ny nx f'))) in *. set (c := f (fst (argmin2 ny nx f')) (snd (argmin2 ny nx f'))) in *.
  revert P Q. unfold Rabs. destruct (Rcase_abs (a - c)); destruct (Rcase_abs (f' i j - f i j)); lra.
Qed.
(** the pixel chosen from the inexact map has an exact chi-squared within twice the rounding of the exact minimum *)
Theorem C103_chi2_minimum :
  forall A eps e im1 im2 err b nthreads zeromean use_np return_all allow_huge ny nx r,
  shape im1 = [ny; nx] -> shape im2 = [ny; nx] -> (0 < ny)%Z -> (0 < nx)%Z -> accurate eps (padded b [ny; nx] [ny; nx]) A ->
  chi2n_map e im1 im2 err b nthreads zeromean use_np return_all false allow_huge = Ok r ->
  let d := chi2_rounding eps zeromean err im1 im2 ny nx in
  exists r', chi2n_map_with A (e_gb e) im1 im2 err b zeromean return_all false allow_huge = Ok r' /\
    let p := argmin2 ny nx (g2 (chi2_of_res r)) in let p' := argmin2 ny nx (g2 (chi2_of_res r')) in
    g2 (chi2_of_res r) (fst p') (snd p') <= g2 (chi2_of_res r) (fst p) (snd p) + 2 * d /\
    ((forall k l, (0 <= k < ny)%Z -> (0 <= l < nx)%Z -> (k, l) <> p -> g2 (chi2_of_res r) (fst p) (snd p) + 2 * d < g2 (chi2_of_res r) k l) -> p' = p).
Proof.
  intros A eps e im1 im2 err b nt zm np ra huge ny nx r H1 H2 Hy Hx HA E d.
  destruct (C103_chi2n_map A eps e im1 im2 err b nt zm np ra huge ny nx r H1 H2 Hy Hx HA E) as [r' [E' [_ B]]].
  exists r'. split; [exact E'|]. cbv zeta. destruct (near_argmin ny nx (g2 (chi2_of_res r)) (g2 (chi2_of_res r')) d Hy Hx B) as [P1 [P2 P3]].
  destruct (argmin2_spec ny nx (g2 (chi2_of_res r)) Hy Hx) as [Q1 [Q2 _]].
  specialize (P3 _ _ Q1 Q2). split; [exact P3|]. intros G.
  destruct (argmin2 ny nx (g2 (chi2_of_res r'))) as [a b'] eqn:EA. cbn [fst snd] in *.
  destruct (Z.eq_dec a (fst (argmin2 ny nx (g2 (chi2_of_res r))))) as [Ea|Ea]; [destruct (Z.eq_dec b' (snd (argmin2 ny nx (g2 (chi2_of_res r))))) as [Eb|Eb]|].
  - rewrite Ea, Eb. destruct (argmin2 ny nx (g2 (chi2_of_res r))); reflexivity.
  - exfalso. assert (W := G a b' P1 P2). destruct (argmin2 ny nx (g2 (chi2_of_res r))) as [u v]. cbn [fst snd] in *. specialize (W ltac:(congruence)). lra.
  - exfalso. assert (W := G a b' P1 P2). destruct (argmin2 ny nx (g2 (chi2_of_res r))) as [u v]. cbn [fst snd] in *. specialize (W ltac:(congruence)). lra.
Qed.
Print Assumptions C103_chi2_minimum.

(** *** register_images, whole pixels *)
Definition corr_rounding (eps : R) (f g : Z -> Z -> R) (ny nx : Z) : R :=
  pixel_sum ny nx (fun i j => Rabs (f i j)) * pixel_sum ny nx (fun i j => Rabs (g i j)) * ((1 + eps) ^ 4 - 1).
Lemma Cmod_Cconj z : Cmod (Cconj z) = Cmod z.
Proof. unfold Cmod, Cconj. cbn [fst snd]. f_equal. ring. Qed.

(** [register_images] with inexact transforms returns a whole-pixel shift, limited by maxoff as the exact one is, whose
    correlation is within twice the rounding of the best *)
Theorem C103_register_images :
  forall A A' eps im1 im2 ret_err zeromean maxoff ny nx,
  shape im1 = [ny; nx] -> shape im2 = [ny; nx] -> (0 < ny)%Z -> (0 < nx)%Z -> mo_ok maxoff ->
  accurate eps [ny; nx] A -> accurate eps [ny; nx] A' ->
  let f := prep zeromean im1 ny nx in let g := prep zeromean im2 ny nx in
  exists ty tx : Z, register_images_with A A' im1 im2 ret_err zeromean maxoff = Ok (nums [IZR tx; IZR ty] ++ err_out ret_err 1) /\
    (- (ny / 2) <= ty <= (ny - 1) / 2)%Z /\ (- (nx / 2) <= tx <= (nx - 1) / 2)%Z /\ bounded maxoff ny ty /\ bounded maxoff nx tx /\
    forall s t, within maxoff s -> within maxoff t -> Rabs (ccf ny nx f g s t) <= Rabs (ccf ny nx f g ty tx) + 2 * corr_rounding eps f g ny nx.
Proof.
  intros A A' eps im1 im2 re zm mo ny nx H1 H2 Hy Hx HM HA HA' f g. set (d := corr_rounding eps f g ny nx).
  unfold register_images_with. rewrite H1, H2. destruct (list_eq_dec Z.eq_dec [ny; nx] [ny; nx]) as [_|N]; [|congruence]. cbn [negb].
  assert (Hp : pos_shape [ny; nx]) by auto using pos2. rewrite check_fft_ok by auto. cbn [bind].
  set (X := Arr [ny; nx] (fun i => RtoC (nan0 (get (zero_mean zm im1) i)))). set (Y := Arr [ny; nx] (fun i => RtoC (nan0 (get (zero_mean zm im2) i)))).
  rewrite (proj1 (proj1 (proj2 HA) X eq_refl)).
  set (P := mk2 ny nx (fun i j => ar_mul A' (g2 (ar_fft A X) i j) (Cconj (g2 (ar_fft A Y) i j)))).
  assert (B : forall i j, (0 <= i < ny)%Z -> (0 <= j < nx)%Z -> Rabs (Cmod (g2 (ar_ifft A' P) i j) - Rabs (ccf ny nx f g (- i) (- j))) <= d).
  { intros i j Hi Hj.
    assert (Q := product_bound eps [ny; nx] A A' X Y [i; j] Cconj HA HA' Hp eq_refl eq_refl (inb2_intro ny nx i j Hi Hj)).
    assert (C1 : forall z w, Cmod (Cminus (Cconj z) (Cconj w)) = Cmod (Cminus z w)).
    { intros z w. rewrite <- (Cmod_Cconj (Cminus z w)). f_equal. unfold Cminus, Cplus, Copp, Cconj. cbn [fst snd]. f_equal; ring. }
    specialize (Q C1 Cmod_Cconj P eq_refl).
    assert (QE : forall k, inb [ny; nx] k -> get P k = ar_mul A' (get (ar_fft A X) k) (Cconj (get (ar_fft A Y) k))) by (intros k Hk; apply inb2 in Hk; destruct Hk as [y [x [-> _]]]; reflexivity).
    specialize (Q QE).
    assert (ZX : forall y, inb [ny; nx] y -> get X y = RtoC (img2 f y)).
    { intros y Hk. apply inb2 in Hk. destruct Hk as [a [b [-> [Ha Hb]]]]. unfold X. cbn [get img2]. rewrite (zero_mean_prep zm im1 ny nx) by auto. reflexivity. }
    assert (ZY : forall y, inb [ny; nx] y -> get Y y = RtoC (img2 g y)).
    { intros y Hk. apply inb2 in Hk. destruct Hk as [a [b [-> [Ha Hb]]]]. unfold Y. cbn [get img2]. rewrite (zero_mean_prep zm im2 ny nx) by auto. reflexivity. }
    rewrite (idft_ext [ny; nx] _ (fun k => Cmult (dft [ny; nx] (fun y => RtoC (img2 f y)) k) (Cconj (dft [ny; nx] (fun y => RtoC (img2 g y)) k)))) in Q
      by (intros k _; rewrite (dft_ext _ _ _ k ZX), (dft_ext _ _ _ k ZY); reflexivity).
    rewrite rcc_grid1, <- !opp_IZR, rcc_int in Q by auto.
    assert (LX : l1 [ny; nx] (get X) = pixel_sum ny nx (fun i j => Rabs (f i j))).
    { rewrite (l1_ext _ _ _ ZX). unfold l1. rewrite sum2_sumNR. apply sum2_ext. intros. cbn [img2]. apply Cmod_R. }
    assert (LY : l1 [ny; nx] (get Y) = pixel_sum ny nx (fun i j => Rabs (g i j))).
    { rewrite (l1_ext _ _ _ ZY). unfold l1. rewrite sum2_sumNR. apply sum2_ext. intros. cbn [img2]. apply Cmod_R. }
    rewrite LX, LY in Q. refine (Rle_trans _ _ _ _ Q). rewrite <- (Cmod_R (ccf ny nx f g (- i) (- j))). apply Cmod_diff. }
  clearbody P. unfold peak.
  rewrite (argmax2_ext' ny nx _ (maskR ny nx mo (fun i j => Cmod (g2 (ar_ifft A' P) i j)))) by (auto; intros; apply Cmod_limit).
  assert (S := masked_argmax ny nx mo (fun i j => Cmod (g2 (ar_ifft A' P) i j)) Hy Hx HM (fun i j => Cmod_ge_0 _)).
  destruct (argmax2 ny nx _) as [rr c]. destruct S as [Hr [Hc [Ar [Ac S]]]].
  exists (- unwrap ny rr)%Z, (- unwrap nx c)%Z. split; [rewrite !opp_IZR; destruct re; reflexivity|].
  split; [apply unwrap_range; auto|]. split; [apply unwrap_range; auto|].
  assert (B1 := allowed_bounds _ _ _ Hy Hr Ar). assert (B2 := allowed_bounds _ _ _ Hx Hc Ac).
  split; [destruct mo; cbn [bounded]; tauto|]. split; [destruct mo; cbn [bounded]; tauto|]. intros s t Ws Wt.
  assert (Ms := Z.mod_pos_bound (- s) ny Hy). assert (Mt := Z.mod_pos_bound (- t) nx Hx).
  specialize (S _ _ Ms Mt (allowed_within _ _ _ Hy Ws) (allowed_within _ _ _ Hx Wt)). cbv beta in S.
  assert (Q1 := B _ _ Ms Mt). assert (Q2 := B _ _ Hr Hc).
  rewrite (ccf_mod ny nx f g (- ((- s) mod ny)) (- ((- t) mod nx)) s t) in Q1; auto.
  2,3: (match goal with |- ((- ((- ?q) mod ?n) - ?q) mod ?n = 0)%Z => apply Z.mod_divide; [lia|]; exists ((- q) / n)%Z; assert (W := Z.div_mod (- q) n ltac:(lia)); lia end).
  rewrite (ccf_mod ny nx f g (- rr) (- c) (- unwrap ny rr) (- unwrap nx c)) in Q2 by (auto; apply unwrap_mod; auto).
  revert Q1 Q2. generalize (Rabs (ccf ny nx f g s t)) (Rabs (ccf ny nx f g (- unwrap ny rr) (- unwrap nx c))). intros a b.
  unfold Rabs. destruct (Rcase_abs _); destruct (Rcase_abs _); lra.
Qed.
Print Assumptions C103_register_images.

(** an image that matches the roll (dy, dx) better than every other roll by more than twice the rounding keeps its answer *)
Theorem C103_register_same_answer :
  forall A A' eps has_fftw im1 im2 ret_err zeromean maxoff nthreads use_np ny nx dy dx,
  shape im1 = [ny; nx] -> shape im2 = [ny; nx] -> (0 < ny)%Z -> (0 < nx)%Z -> mo_ok maxoff ->
  within maxoff (centred ny dy) -> within maxoff (centred nx dx) ->
  accurate eps [ny; nx] A -> accurate eps [ny; nx] A' ->
  let f := prep zeromean im1 ny nx in let g := prep zeromean im2 ny nx in
  (forall s t, ((s - dy) mod ny <> 0 \/ (t - dx) mod nx <> 0)%Z ->
     Rabs (ccf ny nx f g s t) + 2 * corr_rounding eps f g ny nx < Rabs (ccf ny nx f g dy dx)) ->
  register_images_with A A' im1 im2 ret_err zeromean maxoff = Ok (nums [IZR (centred nx dx); IZR (centred ny dy)] ++ err_out ret_err 1) /\
  register_images has_fftw im1 im2 1 false ret_err zeromean maxoff nthreads use_np = register_images_with A A' im1 im2 ret_err zeromean maxoff.
Proof.
  intros A A' eps hf im1 im2 re zm mo nt np ny nx dy dx H1 H2 Hy Hx HM Wy Wx HA HA' f g G.
  assert (D0 : 0 <= corr_rounding eps f g ny nx).
  { assert (e0 := proj1 HA). unfold corr_rounding. apply Rmult_le_pos; [apply Rmult_le_pos; apply sum2_nonneg; intros; apply Rabs_pos|].
    assert (E1 : 0 <= eps * eps) by (apply Rmult_le_pos; auto). assert (E2 : 0 <= eps * (eps * eps)) by (apply Rmult_le_pos; auto). assert (E3 : 0 <= eps * (eps * (eps * eps))) by (apply Rmult_le_pos; auto).
    replace ((1 + eps) ^ 4 - 1) with (4 * eps + 6 * (eps * eps) + 4 * (eps * (eps * eps)) + eps * (eps * (eps * eps))) by ring. lra. }
  assert (E : register_images_with A A' im1 im2 re zm mo = Ok (nums [IZR (centred nx dx); IZR (centred ny dy)] ++ err_out re 1)).
  { destruct (C103_register_images A A' eps im1 im2 re zm mo ny nx H1 H2 Hy Hx HM HA HA') as [ty [tx [E [Ry [Rx [_ [_ Mx]]]]]]].
    fold f g in Mx. specialize (Mx _ _ Wy Wx).
    assert (MD : forall n d, (0 < n)%Z -> ((centred n d - d) mod n = 0)%Z).
    { intros n d Hn. assert (M := centred_mod n d Hn). apply Z.mod_divide in M; [|lia]. apply Z.mod_divide; [lia|]. destruct M as [k M]. exists (- k)%Z. lia. }
    rewrite (ccf_mod ny nx _ _ (centred ny dy) (centred nx dx) dy dx) in Mx by auto.
    assert (D : ~ ((ty - dy) mod ny <> 0 \/ (tx - dx) mod nx <> 0)%Z) by (intros Q; specialize (G ty tx Q); lra).
    assert (SW : forall n a b, (0 < n)%Z -> ((a - b) mod n = 0 -> (b - a) mod n = 0)%Z).
    { intros n a b Hn M. apply Z.mod_divide in M; [|lia]. apply Z.mod_divide; [lia|]. destruct M as [k M]. exists (- k)%Z. lia. }
    rewrite E. rewrite (centred_unique ny dy ty Hy Ry), (centred_unique nx dx tx Hx Rx) by (apply SW; auto; lia). reflexivity. }
  split; [exact E|]. rewrite E. apply C51_unique_peak_is_returned; auto. intros s t Q. specialize (G s t Q). fold f g. lra.
Qed.
Print Assumptions C103_register_same_answer.

(** for nonnegative-correlation matches the condition can be read as distances: [g] is nearer to the roll (dy, dx) of [f]
    than to plus or minus any other roll, by more than four times the rounding in squared distance *)
Theorem C103_distance_form :
  forall ny nx f g dy dx d, (0 < ny)%Z -> (0 < nx)%Z ->
  (forall s t, ((s - dy) mod ny <> 0 \/ (t - dx) mod nx <> 0)%Z ->
     sqdist ny nx g (rolled ny nx f dy dx) + 4 * d < sqdist ny nx g (rolled ny nx f s t) /\
     sqdist ny nx g (rolled ny nx f dy dx) + 4 * d < sqdist ny nx g (fun i j => - rolled ny nx f s t i j)) ->
  forall s t, ((s - dy) mod ny <> 0 \/ (t - dx) mod nx <> 0)%Z -> Rabs (ccf ny nx f g s t) + 2 * d < Rabs (ccf ny nx f g dy dx).
Proof.
  intros ny nx f g dy dx d Hy Hx H s t Q. destruct (H s t Q) as [P N].
  rewrite !(proj1 (sqdist_ccf ny nx f g _ _ Hy Hx)) in P. rewrite (proj1 (sqdist_ccf ny nx f g _ _ Hy Hx)), (proj2 (sqdist_ccf ny nx f g _ _ Hy Hx)) in N.
  assert (R1 := Rle_abs (ccf ny nx f g dy dx)). unfold Rabs at 1. destruct (Rcase_abs (ccf ny nx f g s t)); lra.
Qed.
Print Assumptions C103_distance_form.

(** the accuracy usually proved of FFTs, relative in the Euclidean norm, suffices *)
Definition l2sq (sh : list Z) (a : list Z -> C) : R := sumNR sh (fun i => Cmod (a i) ^ 2).
Definition accurate_l2 (eps : R) (sh : list Z) (A : arith) : Prop :=
  0 <= eps /\
  (forall a, shape a = sh -> shape (ar_fft A a) = sh /\
     sqrt (l2sq sh (fun k => Cminus (get (ar_fft A a) k) (dft sh (get a) k))) <= eps * sqrt (l2sq sh (dft sh (get a)))) /\
  (forall a, shape a = sh -> shape (ar_ifft A a) = sh /\
     sqrt (l2sq sh (fun x => Cminus (get (ar_ifft A a) x) (idft sh (get a) x))) <= eps * sqrt (l2sq sh (idft sh (get a)))) /\
  forall z w, Cmod (Cminus (ar_mul A z w) (Cmult z w)) <= eps * (Cmod z * Cmod w).
Lemma l2sq_nonneg sh a : 0 <= l2sq sh a.
Proof. apply sumNR_nonneg. intros. apply pow2_ge_0. Qed.
Lemma l2_term sh a k : inb sh k -> Cmod (a k) <= sqrt (l2sq sh a).
Proof.
  intros Hk. rewrite <- (sqrt_pow2 (Cmod (a k))) by apply Cmod_ge_0. apply sqrt_le_1_alt.
  apply (sumNR_term_le sh (fun i => Cmod (a i) ^ 2)); auto. intros. apply pow2_ge_0.
Qed.
Lemma l2_l1 sh a : sqrt (l2sq sh a) <= l1 sh a.
Proof.
  rewrite <- (sqrt_pow2 (l1 sh a)) by apply l1_nonneg. apply sqrt_le_1_alt.
  unfold l2sq. replace (l1 sh a ^ 2) with (sumNR sh (fun i => Cmod (a i) * l1 sh a)) by (rewrite sumNR_scal_r; unfold l1; ring).
  apply sumNR_le. intros i Hi. simpl. rewrite Rmult_1_r. apply Rmult_le_compat_l; [apply Cmod_ge_0|].
  apply (sumNR_term_le sh (fun i => Cmod (a i))); auto. intros. apply Cmod_ge_0.
Qed.
Lemma l2sq_dft sh a : pos_shape sh -> l2sq sh (dft sh a) = IZR (prodZ sh) * l2sq sh a.
Proof.
  intros Hp. apply RtoC_inj. rewrite RtoC_mult. unfold l2sq. rewrite <- !sumNC_RtoC.
  rewrite (sumNC_ext sh (fun i => RtoC (Cmod (dft sh a i) ^ 2)) (fun k => Cmult (dft sh a k) (Cconj (dft sh a k)))) by (intros; symmetry; apply Cmult_conj).
  rewrite parseval by auto. f_equal. apply sumNC_ext. intros. apply Cmult_conj.
Qed.
Lemma l2sq_idft sh a : pos_shape sh -> IZR (prodZ sh) * l2sq sh (idft sh a) = l2sq sh a.
Proof.
  intros Hp. rewrite <- l2sq_dft by auto. apply sumNR_ext. intros i Hi. rewrite dft_idft by (auto; apply inb_length; auto). rewrite modl_small; auto.
Qed.
Theorem C103_l2_accuracy :
  forall eps sh A, pos_shape sh -> accurate_l2 eps sh A -> accurate (eps * sqrt (IZR (prodZ sh))) sh A.
Proof.
  intros eps sh A Hp [e0 [HF [HI HM]]]. assert (Z := prodZ_pos sh Hp). assert (Z' : 1 <= IZR (prodZ sh)) by (apply IZR_le; lia).
  assert (S1 : 1 <= sqrt (IZR (prodZ sh))) by (rewrite <- sqrt_1; apply sqrt_le_1_alt; auto).
  split; [apply Rmult_le_pos; lra|]. split; [|split].
  - intros a Ha. destruct (HF a Ha) as [S B]. split; [exact S|]. intros k Hk.
    refine (Rle_trans _ _ _ (l2_term sh (fun k => Cminus (get (ar_fft A a) k) (dft sh (get a) k)) k Hk) _). refine (Rle_trans _ _ _ B _).
    rewrite l2sq_dft, sqrt_mult by (auto; try lra; apply l2sq_nonneg). rewrite Rmult_assoc. apply Rmult_le_compat_l; auto. apply Rmult_le_compat_l; [lra|]. apply l2_l1.
  - intros a Ha. destruct (HI a Ha) as [S B]. split; [exact S|]. intros k Hk.
    refine (Rle_trans _ _ _ (l2_term sh (fun k => Cminus (get (ar_ifft A a) k) (idft sh (get a) k)) k Hk) _). refine (Rle_trans _ _ _ B _).
    rewrite Rmult_assoc. apply Rmult_le_compat_l; auto.
    assert (Q := l2_l1 sh (get a)). rewrite <- (l2sq_idft sh (get a) Hp), sqrt_mult in Q by (try lra; apply l2sq_nonneg).
    set (q := sqrt (IZR (prodZ sh))) in *. assert (QQ : q * q = IZR (prodZ sh)) by (apply sqrt_sqrt; lra). rewrite <- QQ.
    replace (q * (l1 sh (get a) / (q * q))) with (l1 sh (get a) / q) by (field; lra).
    apply (Rmult_le_reg_l q); [lra|]. refine (Rle_trans _ _ _ Q _). right. field. lra.
  - intros z w. refine (Rle_trans _ _ _ (HM z w) _). apply Rmult_le_compat_r; [apply Rmult_le_pos; apply Cmod_ge_0|].
    rewrite <- (Rmult_1_r eps) at 1. apply Rmult_le_compat_l; auto.
Qed.
Print Assumptions C103_l2_accuracy.

(** the exact transforms are accurate with eps = 0, and then the inexact functions are the exact ones *)
Theorem C103_exact_transforms :
  forall has_fftw nthreads use_np sh, accurate 0 sh (exact_arith has_fftw nthreads use_np).
Proof.
  intros hf nt np sh. split; [lra|]. unfold exact_arith. cbn [ar_fft ar_ifft ar_mul].
  assert (Z : forall z, Cminus z z = RtoC 0) by (intros; ring).
  split; [|split].
  - intros a <-. split; [apply get_ffts_fwd|]. intros k _. rewrite (proj2 (get_ffts_fwd hf nt np a)), Z, Cmod_0. lra.
  - intros a <-. split; [apply get_ffts_inv|]. intros k _. rewrite (proj2 (get_ffts_inv hf nt np a)), Z, Cmod_0. lra.
  - intros z w. rewrite Z, Cmod_0. lra.
Qed.
Print Assumptions C103_exact_transforms.

(** errors do not depend on the arithmetic *)
Theorem C103_same_exceptions :
  forall A has_fftw gb im1 im2 b nthreads use_np allow_huge data offset phase ret_abs ret_real x,
  (correlate2d_with A gb im1 im2 b allow_huge = Raise x <-> correlate2d has_fftw gb im1 im2 b nthreads use_np allow_huge = Raise x) /\
  (shiftnd_with A data offset phase ret_abs ret_real = Raise x <-> shiftnd has_fftw data offset phase nthreads use_np ret_abs ret_real = Raise x).
Proof.
  intros A hf gb im1 im2 b nt np huge data off ph ra rr x. rewrite <- correlate2d_exact, <- shiftnd_exact. split.
  - unfold correlate2d_with. destruct (rev2 im2); cbn [bind]; [|tauto]. unfold convolve_fft_with. destruct (negb _); [tauto|].
    destruct b; cbn [bind]; try tauto; (destruct (negb huge && _); [tauto|]; destruct (check_fft _); cbn [bind]; [split; discriminate|tauto]).
  - unfold shiftnd_with. destruct (check_freqs _); cbn [bind]; [|tauto]. destruct (check_fft _); cbn [bind]; [split; discriminate|tauto].
Qed.
Print Assumptions C103_same_exceptions.

(** an inverse transform that is off by eps times the average modulus in the second pixel *)
Definition bumped (eps : R) : arith :=
  Arith np_fftn (fun a => Arr (shape a) (fun x => Cplus (idft (shape a) (get a) x)
     (if list_eq_dec Z.eq_dec x [0; 1]%Z then RtoC (eps * (l1 (shape a) (get a) / IZR (prodZ (shape a)))) else RtoC 0))) Cmult.
Lemma bumped_accurate eps sh : 0 <= eps -> pos_shape sh -> accurate eps sh (bumped eps).
Proof.
  intros e0 Hp. assert (P := prodZ_pos sh Hp). assert (P' : 0 < IZR (prodZ sh)) by (apply IZR_lt; lia). assert (Z : forall z, Cminus z z = RtoC 0) by (intros; ring).
  assert (L : forall a, 0 <= eps * (l1 sh a / IZR (prodZ sh))).
  { intros a. apply Rmult_le_pos; auto. unfold Rdiv. apply Rmult_le_pos; [apply l1_nonneg|left; apply Rinv_0_lt_compat; auto]. }
  split; [exact e0|]. split; [|split].
  - intros a <-. split; [reflexivity|]. intros k _. cbn [bumped ar_fft np_fftn get]. rewrite Z, Cmod_0. apply Rmult_le_pos; auto. apply l1_nonneg.
  - intros a <-. split; [reflexivity|]. intros x _. cbn [bumped ar_ifft get]. specialize (L (get a)).
    replace (Cminus (Cplus (idft (shape a) (get a) x) (if list_eq_dec Z.eq_dec x [0; 1]%Z then RtoC (eps * (l1 (shape a) (get a) / IZR (prodZ (shape a)))) else RtoC 0)) (idft (shape a) (get a) x))
      with (if list_eq_dec Z.eq_dec x [0; 1]%Z then RtoC (eps * (l1 (shape a) (get a) / IZR (prodZ (shape a)))) else RtoC 0) by ring.
    destruct (list_eq_dec _ _ _); [rewrite Cmod_R, Rabs_right; lra|rewrite Cmod_0; lra].
  - intros z w. cbn [bumped ar_mul]. rewrite Z, Cmod_0. apply Rmult_le_pos; auto. apply Rmult_le_pos; apply Cmod_ge_0.
Qed.
Lemma idft_le sh a x : pos_shape sh -> Cmod (idft sh a x) <= l1 sh a / IZR (prodZ sh).
Proof.
  intros Hp. assert (P := prodZ_pos sh Hp). assert (P' : 0 < IZR (prodZ sh)) by (apply IZR_lt; lia).
  unfold idft. rewrite Cmod_mult, Cmod_R, Rabs_right by (left; apply Rinv_0_lt_compat; exact P'). unfold Rdiv. rewrite Rmult_comm.
  apply Rmult_le_compat_r; [left; apply Rinv_0_lt_compat; exact P'|]. refine (Rle_trans _ _ _ (Cmod_sumNC _ _) _). right. apply sumNR_ext. intros i _. rewrite Cmod_mult, Cmod_cis. ring.
Qed.
(** without a gap nothing is promised: on two equal constant images every positive eps lets the answer change *)
Theorem C103_ties_refuted :
  forall eps has_fftw nthreads use_np, 0 < eps ->
  let im := mk2 1 2 (fun _ _ => Fin 1) in
  accurate eps [1; 2]%Z (bumped eps) /\
  register_images has_fftw im im 1 false false false None nthreads use_np = Ok (nums [0; 0]) /\
  register_images_with (bumped eps) (bumped eps) im im false false None = Ok (nums [-1; 0]).
Proof.
  intros eps hf nt np He im. assert (Hp : pos_shape [1; 2]%Z) by (apply pos2; lia). split; [apply bumped_accurate; auto; lra|].
  assert (CC : forall s t, ccf 1 2 (prep false im 1 2) (prep false im 1 2) s t = 2).
  { intros s t. unfold ccf. rewrite (sum2_ext 1 2 _ (fun _ _ => 1)); [rewrite sum2_const by lia; simpl; ring|]. intros i j _ _. unfold prep. cbn [get im mk2]. ring. }
  split.
  - rewrite <- register_images_exact. unfold register_images_with. cbn [im mk2 shape]. destruct (list_eq_dec Z.eq_dec [1; 2]%Z [1; 2]%Z) as [_|N]; [|congruence]. cbn [negb].
    rewrite check_fft_ok by auto. cbn [bind exact_arith ar_fft ar_ifft ar_mul].
    set (X := Arr [1; 2]%Z _). rewrite (proj1 (get_ffts_fwd hf nt np X)). cbn [shape X limit_cc]. unfold peak.
    rewrite (argmax2_ext' 1 2 _ (fun _ _ => 2)); try lia.
    + assert (E : argmax2 1 2 (fun _ _ => 2) = (0, 0)%Z).
      { apply (is_argmin2_unique 1 2 (fun _ _ => - 2)); [apply argmin2_spec; lia|]. repeat split; cbn [fst snd]; try lia; intros; try (exfalso; lia); lra. }
      rewrite E. cbn [app nums map]. unfold unwrap. rewrite !truncR_half by lia. destruct (Rlt_dec _ _) as [L|_]; [apply lt_IZR in L; exfalso; revert L; vm_compute; discriminate|].
      destruct (Rlt_dec _ _) as [L|_]; [apply lt_IZR in L; exfalso; revert L; vm_compute; discriminate|]. rewrite !Ropp_0. reflexivity.
    + intros i j Hi Hj. unfold g2. rewrite (proj2 (get_ffts_inv hf 1 false _)). cbn [shape mk2].
      rewrite (idft_ext _ _ (fun k => Cmult (dft [1; 2]%Z (fun y => RtoC (img2 (prep false im 1 2) y)) k) (Cconj (dft [1; 2]%Z (fun y => RtoC (img2 (prep false im 1 2) y)) k)))).
      * rewrite rcc_grid1, <- !opp_IZR, rcc_int, CC, Cmod_R by lia. apply Rabs_right. lra.
      * intros k Hk. apply inb2 in Hk. destruct Hk as [y [x [-> _]]]. cbn [get mk2]. rewrite !(proj2 (get_ffts_fwd hf nt np X)). cbn [shape X].
        reflexivity.
  - unfold register_images_with. cbn [im mk2 shape]. destruct (list_eq_dec Z.eq_dec [1; 2]%Z [1; 2]%Z) as [_|N]; [|congruence]. cbn [negb].
    rewrite check_fft_ok by auto. cbn [bind bumped ar_fft ar_ifft ar_mul np_fftn shape get limit_cc]. unfold peak.
    set (P := mk2 1 2 _). set (B := eps * (l1 (shape P) (get P) / IZR (prodZ (shape P)))).
    assert (V : forall i j, (0 <= i < 1)%Z -> (0 <= j < 2)%Z -> idft (shape P) (get P) [i; j] = RtoC 2).
    { intros i j Hi Hj. change (shape P) with [1; 2]%Z.
      rewrite (idft_ext _ _ (fun k => Cmult (dft [1; 2]%Z (fun y => RtoC (img2 (prep false im 1 2) y)) k) (Cconj (dft [1; 2]%Z (fun y => RtoC (img2 (prep false im 1 2) y)) k)))).
      * rewrite rcc_grid1, <- !opp_IZR, rcc_int, CC by lia. reflexivity.
      * intros k Hk. apply inb2 in Hk. destruct Hk as [y [x [-> _]]]. unfold P. cbn [get mk2 g2]. unfold g2. cbn [get].
        reflexivity. }
    assert (BP : 0 < B).
    { unfold B. apply Rmult_lt_0_compat; auto. assert (Q := idft_le (shape P) (get P) [0; 0]%Z Hp). rewrite V in Q by lia. rewrite Cmod_R, Rabs_right in Q by lra. lra. }
    clearbody B. rewrite (argmax2_ext' 1 2 _ (fun _ j => if (j =? 1)%Z then 2 + B else 2)); try lia.
    + assert (E : argmax2 1 2 (fun _ j => if (j =? 1)%Z then 2 + B else 2) = (0, 1)%Z).
      { apply argmin2_strict; try lia. intros i j Hi Hj Q. destruct (Z.eqb_spec j 1) as [->|]; [exfalso; apply Q; f_equal; lia|]. change ((1 =? 1)%Z) with true. cbv iota. lra. }
      rewrite E. cbn [app nums map]. unfold unwrap. rewrite !truncR_half by lia. destruct (Rlt_dec _ _) as [L|_]; [apply lt_IZR in L; exfalso; revert L; vm_compute; discriminate|].
      destruct (Rlt_dec _ _) as [L|_]; [apply lt_IZR in L; exfalso; revert L; vm_compute; discriminate|]. rewrite !Ropp_0. reflexivity.
    + intros i j Hi Hj. unfold g2. cbn [get]. rewrite V by auto. assert (i = 0%Z) by lia. subst i. assert (Ej : (j = 0 \/ j = 1)%Z) by lia.
      destruct Ej as [->| ->]; destruct (list_eq_dec Z.eq_dec _ _) as [Q|Q]; try congruence; try discriminate; cbn [Z.eqb Pos.eqb]; rewrite <- RtoC_plus, Cmod_R, Rabs_right; lra.
Qed.
Print Assumptions C103_ties_refuted.

(** the hypotheses of C103_register_same_answer hold for single bright pixels and a small enough eps, with transforms that do err *)
Example C103_nonvacuous : let im1 := dot 4 5 1 1 in let im2 := dot 4 5 3 4 in let f := prep false im1 4 5 in let g := prep false im2 4 5 in
  accurate (/ 100) [4; 5]%Z (bumped (/ 100)) /\
  (forall s t, ((s - 2) mod 4 <> 0 \/ (t - -2) mod 5 <> 0)%Z -> Rabs (ccf 4 5 f g s t) + 2 * corr_rounding (/ 100) f g 4 5 < Rabs (ccf 4 5 f g 2 (-2))).
Proof.
  cbv zeta. split; [apply bumped_accurate; [lra|apply pos2; lia]|].
  assert (D : forall a b s t, (0 <= a < 4)%Z -> (0 <= b < 5)%Z -> ccf 4 5 (prep false (dot 4 5 1 1) 4 5) (prep false (dot 4 5 a b) 4 5) s t = if ((1 + s) mod 4 =? a)%Z && ((1 + t) mod 5 =? b)%Z then 1 else 0).
  { intros a b s t Ha Hb. rewrite (ccf_delta 4 5 _ _ 1 1) by (try lia; intros; apply dot_prep). rewrite dot_prep. reflexivity. }
  assert (AS : forall a b, (0 <= a < 4)%Z -> (0 <= b < 5)%Z -> pixel_sum 4 5 (fun i j => Rabs (prep false (dot 4 5 a b) 4 5 i j)) = 1).
  { intros a b Ha Hb. unfold pixel_sum. rewrite (sumR_ext 4 _ (fun i => if (i =? a)%Z then 1 else 0)).
    - rewrite (sumR_single 4 (fun i => if (i =? a)%Z then 1 else 0) a Ha); [rewrite Z.eqb_refl; reflexivity|]. intros i _ N. destruct (Z.eqb_spec i a); [contradiction|reflexivity].
    - intros i Hi. destruct (Z.eqb_spec i a) as [->|N].
      + rewrite (sumR_single 5 _ b); auto.
        * rewrite dot_prep, !Z.eqb_refl. cbn [andb]. apply Rabs_R1.
        * intros j _ N. rewrite dot_prep. destruct (Z.eqb_spec j b); [contradiction|]. rewrite andb_false_r. apply Rabs_R0.
      + apply sumR_const0. intros j _. rewrite dot_prep. destruct (Z.eqb_spec i a); [contradiction|]. apply Rabs_R0. }
  intros s t Q. rewrite !D by lia. unfold corr_rounding. rewrite !AS by lia.
  change (((1 + 2) mod 4 =? 3)%Z && ((1 + -2) mod 5 =? 4)%Z) with true. cbv iota. rewrite Rabs_R1.
  replace (((1 + s) mod 4 =? 3)%Z && ((1 + t) mod 5 =? 4)%Z) with false.
  - cbv iota. rewrite Rabs_R0. lra.
  - symmetry. apply andb_false_iff. rewrite !Z.eqb_neq. Z.to_euclidean_division_equations. lia.
Qed.
