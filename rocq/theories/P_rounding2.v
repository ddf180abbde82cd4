(** C111: rounding errors in zooming, upsampling and chi2_shift *)
From Coq Require Import ZArith Lia List Reals Lra Bool.
From Coquelicot Require Import Complex.
From Verif Require Import Base NDim DFT Kernel Num Py Sum2 M_fast_ffts M_shift M_scale M_zoom M_upsample M_convolve M_correlate Arg M_chi2 M_rounding M_rounding2
  Spec L_shift L_scale L_upsample L_convolve Spec2 Spec3 Spec4 L_correlate L_chi2 L_zoom L_fshift L_chi2shift L_iterzoom2 P_xcorr3 P_chi2map P_chi2shift P_rounding.
Import ListNotations.
Open Scope R_scope.

(** the transform as in [accurate]; exponentials with a phase up to T off by at most eps; a dot product over an axis off by at most eps times the sum of the moduli of its terms *)
Definition accurate_zoom (eps T : R) (sh : list Z) (B : zarith) : Prop :=
  0 <= eps /\
  (forall a, shape a = sh -> shape (za_ifft B a) = sh /\
     forall x, inb sh x -> Cmod (Cminus (get (za_ifft B a) x) (idft sh (get a) x)) <= eps * (l1 sh (get a) / IZR (prodZ sh))) /\
  (forall t, Rabs t <= T -> Cmod (Cminus (za_cis B t) (cis t)) <= eps) /\
  (forall n a b, In n sh -> (0 <= n)%Z -> Cmod (Cminus (za_dot B n a b) (sumC n (fun k => Cmult (a k) (b k)))) <= eps * sumR n (fun k => Cmod (a k) * Cmod (b k))).

Section Zoom.
Variables (eps T : R) (sh : list Z) (B : zarith).
Hypothesis HB : accurate_zoom eps T sh B.
Let e0 : 0 <= eps. Proof. exact (proj1 HB). Qed.

Lemma dot_bound n a' a b' b M N p q : In n sh -> (0 <= n)%Z -> 0 <= M -> 0 <= N -> 1 <= p -> 1 <= q ->
  (forall k, (0 <= k < n)%Z -> Cmod (Cminus (a' k) (a k)) <= M * (p - 1) /\ Cmod (a k) <= M) ->
  (forall k, (0 <= k < n)%Z -> Cmod (Cminus (b' k) (b k)) <= N * (q - 1) /\ Cmod (b k) <= N) ->
  Cmod (Cminus (za_dot B n a' b') (sumC n (fun k => Cmult (a k) (b k)))) <= IZR n * (M * N) * ((1 + eps) * p * q - 1) /\
  Cmod (sumC n (fun k => Cmult (a k) (b k))) <= IZR n * (M * N).
Proof.
  intros Hin Hn HM HN Hp Hq Ha Hb. destruct HB as [_ [_ [_ HD]]]. specialize (HD n a' b' Hin Hn).
  assert (S2 : Cmod (sumC n (fun k => Cmult (a k) (b k))) <= IZR n * (M * N)).
  { refine (Rle_trans _ _ _ (Cmod_sumC _ _) _). rewrite <- sumR_const by auto. apply sumR_le. intros k Hk. rewrite Cmod_mult.
    destruct (Ha k Hk), (Hb k Hk). apply Rmult_le_compat; auto using Cmod_ge_0. }
  split; [|exact S2].
  assert (A1 : sumR n (fun k => Cmod (a' k) * Cmod (b' k)) <= IZR n * ((M * p) * (N * q))).
  { rewrite <- sumR_const by auto. apply sumR_le. intros k Hk. destruct (Ha k Hk) as [A1 A2], (Hb k Hk) as [B1 B2].
    assert (BU := Cmod_near _ _ _ _ A1 A2). assert (BV := Cmod_near _ _ _ _ B1 B2). apply Rmult_le_compat; auto using Cmod_ge_0; lra. }
  assert (A2 : Cmod (Cminus (sumC n (fun k => Cmult (a' k) (b' k))) (sumC n (fun k => Cmult (a k) (b k)))) <= IZR n * (M * N * (p * q - 1))).
  { rewrite <- sumC_minus. refine (Rle_trans _ _ _ (Cmod_sumC _ _) _). rewrite <- sumR_const by auto. apply sumR_le. intros k Hk.
    destruct (Ha k Hk) as [A2 A3], (Hb k Hk) as [B1 B2]. assert (BV := Cmod_near _ _ _ _ B1 B2).
    replace (Cminus (Cmult (a' k) (b' k)) (Cmult (a k) (b k))) with (Cplus (Cmult (Cminus (a' k) (a k)) (b' k)) (Cmult (a k) (Cminus (b' k) (b k)))) by ring.
    refine (Rle_trans _ _ _ (Cmod_triangle _ _) _). rewrite !Cmod_mult.
    assert (Q1 : Cmod (Cminus (a' k) (a k)) * Cmod (b' k) <= (M * (p - 1)) * (N * q)) by (apply Rmult_le_compat; auto using Cmod_ge_0; lra).
    assert (Q2 : Cmod (a k) * Cmod (Cminus (b' k) (b k)) <= M * (N * (q - 1))) by (apply Rmult_le_compat; auto using Cmod_ge_0).
    replace (M * N * (p * q - 1)) with (M * (p - 1) * (N * q) + M * (N * (q - 1))) by ring. lra. }
  replace (Cminus (za_dot B n a' b') (sumC n (fun k => Cmult (a k) (b k)))) with
    (Cplus (Cminus (za_dot B n a' b') (sumC n (fun k => Cmult (a' k) (b' k)))) (Cminus (sumC n (fun k => Cmult (a' k) (b' k))) (sumC n (fun k => Cmult (a k) (b k))))) by ring.
  refine (Rle_trans _ _ _ (Cmod_triangle _ _) _).
  assert (A3 := Rmult_le_compat_l eps _ _ e0 A1).
  replace (IZR n * (M * N) * ((1 + eps) * p * q - 1)) with (eps * (IZR n * (M * p * (N * q))) + IZR n * (M * N * (p * q - 1))) by ring. lra.
Qed.

Lemma idft_le a x : pos_shape sh -> Cmod (idft sh a x) <= l1 sh a / IZR (prodZ sh).
Proof.
  intros Hp. assert (P := prodZ_pos sh Hp). assert (P' : 0 < IZR (prodZ sh)) by (apply IZR_lt; lia).
  unfold idft. rewrite Cmod_mult, Cmod_R, Rabs_right by (left; apply Rinv_0_lt_compat; exact P'). unfold Rdiv. rewrite (Rmult_comm (l1 _ _)).
  apply Rmult_le_compat_l; [left; apply Rinv_0_lt_compat; exact P'|]. refine (Rle_trans _ _ _ (Cmod_sumNC _ _) _). right. apply sumNR_ext. intros i _. rewrite Cmod_mult, Cmod_cis. ring.
Qed.
Lemma cis_bound t : Rabs t <= T -> Cmod (Cminus (za_cis B t) (cis t)) <= 1 * ((1 + eps) - 1) /\ Cmod (cis t) <= 1.
Proof. intros Ht. split; [|rewrite Cmod_cis; lra]. destruct HB as [_ [_ [HC _]]]. specialize (HC t Ht). lra. Qed.
End Zoom.

Lemma matrix_bound eps T sh B nr nc (S' S : Z -> Z -> C) ty tx M p : accurate_zoom eps T sh B -> In nr sh -> In nc sh -> (0 < nr)%Z -> (0 < nc)%Z -> 0 <= M -> 1 <= p ->
  (forall k, (0 <= k < nr)%Z -> Rabs (ty k) <= T) -> (forall l, (0 <= l < nc)%Z -> Rabs (tx l) <= T) ->
  (forall k l, (0 <= k < nr)%Z -> (0 <= l < nc)%Z -> Cmod (Cminus (S' k l) (S k l)) <= M * (p - 1) /\ Cmod (S k l) <= M) ->
  Cmod (Cminus (za_dot B nc (fun l => za_dot B nr (fun k => za_cis B (ty k)) (fun k => S' k l)) (fun l => za_cis B (tx l)))
    (sumC nc (fun l => Cmult (sumC nr (fun k => Cmult (cis (ty k)) (S k l))) (cis (tx l))))) <= IZR (nr * nc) * M * ((1 + eps) ^ 4 * p - 1).
Proof.
  intros HB Ir Ic Hr Hc HM Hp HTy HTx H. assert (e0 := proj1 HB).
  assert (N0 : 0 <= IZR nr) by (apply IZR_le; lia).
  assert (P4 : 1 <= (1 + eps) * (1 + eps) * p).
  { apply Rle_trans with (1 * 1 * 1); [lra|]. apply Rmult_le_compat; try lra. apply Rmult_le_compat; lra. }
  destruct (dot_bound eps T sh B HB nc (fun l => za_dot B nr (fun k => za_cis B (ty k)) (fun k => S' k l)) (fun l => sumC nr (fun k => Cmult (cis (ty k)) (S k l)))
    (fun l => za_cis B (tx l)) (fun l => cis (tx l)) (IZR nr * (1 * M)) 1 ((1 + eps) * (1 + eps) * p) (1 + eps)) as [Q _]; try lia; try lra; try exact Ic.
  - apply Rmult_le_pos; lra.
  - intros l Hl. apply (dot_bound eps T sh B HB nr); try lia; try lra; try exact Ir.
    + intros k Hk. apply (cis_bound eps T sh B HB); auto.
    + intros k Hk. apply H; auto.
  - intros l Hl. apply (cis_bound eps T sh B HB); auto.
  - refine (Rle_trans _ _ _ Q _). right. rewrite mult_IZR. ring.
Qed.
Lemma pow_ge1 e n : 0 <= e -> 1 <= (1 + e) ^ n.
Proof. intros. induction n as [|n IH]; [simpl; lra|]. cbn [pow]. apply Rle_trans with (1 * 1); [lra|]. apply Rmult_le_compat; lra. Qed.

Lemma pick_real_near d rr x y : shape x = shape y -> (forall i, inb (shape x) i -> Cmod (Cminus (get x i) (get y i)) <= d) -> within_pixelwise d (pick_real rr x) (pick_real rr y).
Proof.
  intros HS H. unfold pick_real. destruct rr; cbn [within_pixelwise amap shape get]; split; auto; intros i Hi.
  refine (Rle_trans _ _ _ _ (H i Hi)). change (Re (get x i) - Re (get y i)) with (Re (Cminus (get x i) (get y i))). apply re_le_Cmod.
Qed.

(** the frequencies are at most 1/2, so the phase at position p is at most pi |p| *)
Lemma fidx_half n k : (0 < n)%Z -> (0 <= k < n)%Z -> Rabs (IZR (fidx n k)) <= IZR n / 2.
Proof.
  intros Hn Hk. rewrite <- abs_IZR. assert (Q : (2 * Z.abs (fidx n k) <= n)%Z); [|apply IZR_le in Q; rewrite mult_IZR in Q; lra].
  unfold fidx. destruct (Z.leb_spec k ((n - 1) / 2)); Z.to_euclidean_division_equations; lia.
Qed.
Lemma fftfreq_half n k : (0 < n)%Z -> (0 <= k < n)%Z -> Rabs (fftfreq n k) <= 1 / 2.
Proof.
  intros Hn Hk. unfold fftfreq. assert (P : 0 < IZR n) by (apply IZR_lt; auto). assert (Q := fidx_half n k Hn Hk).
  unfold Rdiv. rewrite Rabs_mult, (Rabs_right (/ IZR n)) by (left; apply Rinv_0_lt_compat; auto). apply (Rmult_le_reg_r (IZR n)); auto.
  rewrite Rmult_assoc, Rinv_l by lra. lra.
Qed.
Lemma phase_le n k x T : (0 < n)%Z -> (0 <= k < n)%Z -> PI * Rabs x <= T -> Rabs (- (2 * PI) * (fftfreq n k * x)) <= T.
Proof.
  intros Hn Hk H. refine (Rle_trans _ _ _ _ H). rewrite !Rabs_mult, Rabs_Ropp, Rabs_mult, (Rabs_right 2), (Rabs_right PI) by (assert (Q := PI_RGT_0); lra).
  assert (Q := fftfreq_half n k Hn Hk). assert (Q2 : 0 <= PI * Rabs x) by (apply Rmult_le_pos; [left; apply PI_RGT_0|apply Rabs_pos]).
  assert (Q3 := Rmult_le_compat_r _ _ _ Q2 Q). lra.
Qed.
(** all positions that a zoom function reports have phases up to T *)
Definition positions_within (T : R) (z : res zoomres) : Prop :=
  match z with Ok (Some x, _) => forall i, inb (shape x) i -> PI * Rabs (get x i) <= T | _ => True end.

(** sum of the moduli of the pixels *)
Definition mod_sum (a : arr C) : R := sumNR (shape a) (fun i => Cmod (get a i)).

Lemma interp2_near B eps T hf nt np data outinds rr r ny nx : shape data = [ny; nx] -> accurate_zoom eps T [ny; nx] B ->
  (forall d c, (d = 0 \/ d = 1)%Z -> axis_coords outinds d = Ok c -> forall i, (0 <= i < nth 0 (shape c) 0)%Z -> PI * Rabs (g1 c i) <= T) ->
  fourier_interp2d hf data outinds nt np rr = Ok r ->
  exists r', fourier_interp2d_with B data outinds rr = Ok r' /\ within_pixelwise (mod_sum data * ((1 + eps) ^ 5 - 1)) r' r.
Proof.
  intros HS HB HT E. assert (e0 := proj1 HB). rewrite <- fourier_interp2d_exact in E. unfold fourier_interp2d_with in *.
  destruct (check_outinds _ _); [|discriminate]. cbn [bind] in *. rewrite HS in *. unfold check_fft in *.
  destruct (pos_shapeb [ny; nx]) eqn:EP; [|discriminate]. cbn [bind] in *. apply pos_shapeb_spec in EP.
  assert (HT0 := HT 0%Z). assert (HT1 := HT 1%Z).
  destruct (axis_coords outinds 0) as [ys|]; [|discriminate]. cbn [bind] in *. destruct (axis_coords outinds 1) as [xs|]; [|discriminate]. cbn [bind] in *.
  specialize (HT0 ys (or_introl eq_refl) eq_refl). specialize (HT1 xs (or_intror eq_refl) eq_refl).
  injection E as <-. eexists. split; [reflexivity|]. apply pick_real_near; [reflexivity|]. intros i Hi. cbn [shape mk2] in Hi.
  destruct i as [|i [|j [|]]]; try (cbn in Hi; tauto).
  cbn [get mk2 exact_zarith za_dot za_cis za_ifft].
  assert (Hy : (0 < ny)%Z) by (inversion EP; auto). assert (Hx : (0 < nx)%Z) by (inversion EP as [|? ? _ EP2]; inversion EP2; auto).
  assert (PN : 0 < IZR (ny * nx)) by (apply IZR_lt; nia).
  assert (PZ : prodZ [ny; nx] = (ny * nx)%Z) by (cbn; lia).
  assert (L0 := l1_nonneg [ny; nx] (get data)).
  assert (M0 : 0 <= l1 [ny; nx] (get data) / IZR (ny * nx)) by (apply Rmult_le_pos; [auto|left; apply Rinv_0_lt_compat; auto]).
  rewrite (sumC_ext nx _ (fun l => Cmult (sumC ny (fun k => Cmult (cis (- (2 * PI) * (fftfreq ny k * g1 ys i))) (idft [ny; nx] (get data) [k; l]))) (cis (- (2 * PI) * (fftfreq nx l * g1 xs j))))).
  2:{ intros l Hl. f_equal. apply sumC_ext. intros k Hk. f_equal. unfold g2. rewrite (proj2 (get_ffts_inv hf nt np data)), HS. reflexivity. }
  refine (Rle_trans _ _ _ (matrix_bound eps T [ny; nx] B ny nx (g2 (za_ifft B data)) (fun k l => idft [ny; nx] (get data) [k; l])
    (fun k => - (2 * PI) * (fftfreq ny k * g1 ys i)) (fun l => - (2 * PI) * (fftfreq nx l * g1 xs j)) (l1 [ny; nx] (get data) / IZR (ny * nx)) (1 + eps) HB (or_introl eq_refl) (or_intror (or_introl eq_refl)) Hy Hx M0 ltac:(lra) _ _ _) _).
  - intros k Hk. apply phase_le; auto. apply HT0. destruct Hi; auto.
  - intros l Hl. apply phase_le; auto. apply HT1. destruct Hi as [_ [? _]]; auto.
  - intros k l Hk Hl. rewrite <- PZ. split; [|apply (idft_le [ny; nx] (get data) [k; l] EP)].
    destruct HB as [_ [HI _]]. destruct (HI data HS) as [_ HI']. specialize (HI' [k; l]). unfold g2. rewrite Rmult_comm. replace (1 + eps - 1) with eps by ring. apply HI'. cbn. lia.
  - right. unfold mod_sum, l1. rewrite HS. cbn [pow]. field. lra.
Qed.

Lemma interp1_near B eps T hf nt np data ox rr r n : shape data = [n] -> accurate_zoom eps T [n] B ->
  (forall i, inb (shape ox) i -> PI * Rabs (get ox i) <= T) ->
  fourier_interp1d hf data ox None nt np rr = Ok r ->
  exists r', fourier_interp1d_with B data ox None rr = Ok r' /\ within_pixelwise (mod_sum data * ((1 + eps) ^ 3 - 1)) r' r.
Proof.
  intros HS HB HT E. assert (e0 := proj1 HB). rewrite <- fourier_interp1d_exact in E. unfold fourier_interp1d_with in *. rewrite HS in *.
  destruct (check_freqs _); [|discriminate]. cbn [bind] in *. destruct (shape ox) as [|m [|]] eqn:HO; try discriminate. cbn [bind] in *. unfold check_fft in *.
  destruct (pos_shapeb [n]) eqn:EP; [|discriminate]. cbn [bind] in *. apply pos_shapeb_spec in EP.
  injection E as <-. eexists. split; [reflexivity|]. apply pick_real_near; [reflexivity|]. intros i Hi. cbn [shape mk1] in Hi.
  destruct i as [|j [|]]; try (cbn in Hi; tauto).
  cbn [get mk1 exact_zarith za_dot za_cis za_ifft].
  assert (Hn : (0 < n)%Z) by (inversion EP; auto). assert (PN : 0 < IZR n) by (apply IZR_lt; auto).
  assert (PZ : prodZ [n] = n) by (cbn; lia).
  assert (L0 := l1_nonneg [n] (get data)).
  assert (M0 : 0 <= l1 [n] (get data) / IZR n) by (apply Rmult_le_pos; [auto|left; apply Rinv_0_lt_compat; auto]).
  rewrite (sumC_ext n _ (fun k => Cmult (idft [n] (get data) [k]) (cis (- (2 * PI) * fftfreq n k * g1 ox j)))).
  2:{ intros k Hk. f_equal. unfold g1. rewrite (proj2 (get_ffts_inv hf nt np data)), HS. reflexivity. }
  destruct (dot_bound eps T [n] B HB n (fun k => g1 (za_ifft B data) k) (fun k => idft [n] (get data) [k]) (fun k => za_cis B (- (2 * PI) * fftfreq n k * g1 ox j))
    (fun k => cis (- (2 * PI) * fftfreq n k * g1 ox j)) (l1 [n] (get data) / IZR n) 1 (1 + eps) (1 + eps)) as [Q _]; try lia; try lra; auto using in_eq.
  - intros k Hk. split; [|assert (Q := idft_le [n] (get data) [k] EP); rewrite PZ in Q; exact Q].
    destruct HB as [_ [HI _]]. destruct (HI data HS) as [_ HI']. specialize (HI' [k]). rewrite PZ in HI'. unfold g1. rewrite Rmult_comm. replace (1 + eps - 1) with eps by ring. apply HI'. cbn. lia.
  - intros k Hk. apply (cis_bound eps T [n] B HB). rewrite Rmult_assoc. apply phase_le; auto. apply (HT [j]). exact Hi.
  - refine (Rle_trans _ _ _ Q _). right. unfold mod_sum, l1. rewrite HS. cbn [pow]. field. lra.
Qed.

(** *** zooming: the pixel positions are exact, the values off by at most the sum of the moduli of the data times (1+eps)^3 - 1 per axis pair *)
Theorem C111_zoom :
  forall B eps T has_fftw inp nthreads use_np ret_real ret_xouts,
  accurate_zoom eps T (shape inp) B ->
  let d := mod_sum inp * ((1 + eps) ^ (2 * ndim inp + 1) - 1) in
  (forall coordinates usfac outshape x r,
     positions_within T (zoom_on_pixel has_fftw inp coordinates usfac outshape nthreads use_np ret_real true) ->
     zoom_on_pixel has_fftw inp coordinates usfac outshape nthreads use_np ret_real ret_xouts = Ok (x, r) ->
     exists r', zoom_on_pixel_with B inp coordinates usfac outshape ret_real ret_xouts = Ok (x, r') /\ within_pixelwise d r' r) /\
  (forall offsets mc usfac outshape x r,
     positions_within T (zoomnd has_fftw inp offsets mc usfac outshape nthreads use_np ret_real true) ->
     zoomnd has_fftw inp offsets mc usfac outshape nthreads use_np ret_real ret_xouts = Ok (x, r) ->
     exists r', zoomnd_with B inp offsets mc usfac outshape ret_real ret_xouts = Ok (x, r') /\ within_pixelwise d r' r) /\
  (forall usfac outsize offset x r,
     positions_within T (zoom1d has_fftw inp usfac outsize offset nthreads use_np true ret_real) ->
     zoom1d has_fftw inp usfac outsize offset nthreads use_np ret_xouts ret_real = Ok (x, r) ->
     exists r', zoom1d_with B inp usfac outsize offset ret_xouts ret_real = Ok (x, r') /\ within_pixelwise d r' r).
Proof.
  intros B eps T hf inp nt np rr rx HB d.
  assert (ZP : forall coordinates usfac outshape x r, positions_within T (zoom_on_pixel hf inp coordinates usfac outshape nt np rr true) -> zoom_on_pixel hf inp coordinates usfac outshape nt np rr rx = Ok (x, r) ->
     exists r', zoom_on_pixel_with B inp coordinates usfac outshape rr rx = Ok (x, r') /\ within_pixelwise d r' r).
  { intros c u o x r. subst d. unfold zoom_on_pixel, zoom_on_pixel_with, ndim.
    set (os := match o with Some s => s | None => shape inp end). destruct (Nat.eqb_spec (length os) (length (shape inp))) as [EL|]; [|discriminate]. cbn [negb].
    destruct (existsb _ _); [discriminate|].
    destruct (if Nat.eqb _ 0 then _ else _); [|discriminate]. cbn [bind]. clearbody os. destruct (shape inp) as [|n [|n2 [|]]] eqn:HS; try discriminate.
    - destruct os as [|m [|]]; try discriminate. set (oa := Arr _ _). set (sq := if (_ =? 1)%Z then _ else _).
      intros HT E. destruct (fourier_interp1d _ _ _ _ _ _ _) as [q|] eqn:E1; [|discriminate]. cbn [bind] in *.
      destruct (interp1_near B eps T hf nt np inp sq rr q n HS HB) as [r' [R1 R2]]; [|exact E1|].
      { intros i Hi. revert E1 Hi. unfold sq. cbn [nth]. destruct (m =? 1)%Z.
        - unfold fourier_interp1d. destruct (get_ffts hf nt np). rewrite HS. destruct (check_freqs _); cbn [bind shape]; intros Q; discriminate Q.
        - intros _ Hi. destruct i as [|j [|]]; try (cbn in Hi; tauto). apply (HT [0%Z; j]). cbn in Hi |- *. lia. }
      rewrite R1. cbn [bind]. unfold with_xouts in *. injection E as <- <-. exists r'. split; [reflexivity|exact R2].
    - destruct os as [|m1 [|m2 [|]]]; try discriminate. set (oa := Arr _ _).
      intros HT E. destruct (fourier_interp2d _ _ _ _ _ _) as [q|] eqn:E1; [|discriminate]. cbn [bind] in *.
      destruct (interp2_near B eps T hf nt np inp (IndArr oa) rr q n n2 HS HB) as [r' [R1 R2]]; [|exact E1|].
      { intros d cc Hd. unfold axis_coords. cbn [oa shape]. destruct Hd as [-> | ->]; cbn [Z.eqb].
        - destruct (Z.leb_spec m2 0); [discriminate|]. intros Q. injection Q as <-. cbn [mk1 shape nth]. intros i Hi. apply (HT [0%Z; i; 0%Z]). cbn. lia.
        - destruct (Z.leb_spec m1 0); [discriminate|]. intros Q. injection Q as <-. cbn [mk1 shape nth]. intros i Hi. apply (HT [1%Z; 0%Z; i]). cbn. lia. }
      rewrite R1. cbn [bind]. unfold with_xouts in *. injection E as <- <-. exists r'. split; [reflexivity|exact R2]. }
  split; [exact ZP|split].
  - intros off mc u o x r. unfold zoomnd, zoomnd_with. destruct (_ && _); [discriminate|]. apply ZP.
  - intros u o off x r. subst d. unfold zoom1d, zoom1d_with, ndim. destruct (shape inp) as [|n [|]] eqn:HS; try discriminate.
    destruct (pydiv _ _); [|discriminate]. cbn [bind]. destruct (linspace _ _ _); [|discriminate]. cbn [bind].
    intros HT E. destruct (fourier_interp1d _ _ _ _ _ _ _) as [q|] eqn:E1; [|discriminate]. cbn [bind with_xouts positions_within] in *. destruct (interp1_near B eps T hf nt np inp _ rr q n HS HB HT E1) as [r' [R1 R2]].
    rewrite R1. cbn [bind]. unfold with_xouts in *. injection E as <- <-. exists r'. split; [reflexivity|exact R2].
Qed.
Print Assumptions C111_zoom.

(** *** upsampling *)
Theorem C111_upsample_image :
  forall B eps T has_fftw image usfac output_size nthreads use_np xshift yshift r,
  accurate_zoom eps T (shape image) B ->
  upsample_image has_fftw image usfac output_size nthreads use_np xshift yshift = Ok r ->
  (forall i, (0 <= i < nth 0 (shape r) 0)%Z -> PI * Rabs ((IZR i - yshift) / usfac) <= T) ->
  (forall j, (0 <= j < nth 1 (shape r) 0)%Z -> PI * Rabs ((IZR j - xshift) / usfac) <= T) ->
  exists r', upsample_image_with B image usfac output_size xshift yshift = Ok r' /\ shape r' = shape r /\
    forall i, inb (shape r) i -> Cmod (Cminus (get r' i) (get r i)) <= mod_sum image * ((1 + eps) ^ 5 - 1).
Proof.
  intros B eps T hf data u o nt np xs ys r HB E HTy HTx. assert (e0 := proj1 HB). rewrite <- upsample_image_exact in E. unfold upsample_image_with in *.
  unfold check_fft in *. destruct (pos_shapeb (shape data)) eqn:EP; [|discriminate]. cbn [bind] in *. apply pos_shapeb_spec in EP.
  destruct (match o with ONone => _ | OSeq _ => _ | ONum _ => _ end) as [[s1 s2]|]; [|discriminate]. cbn [bind fst snd] in *.
  unfold dftups_with in *. cbn [exact_zarith za_ifft] in E. rewrite (proj1 (get_ffts_inv hf nt np data)) in E.
  destruct (HB) as [_ [HI _]]. destruct (HI data eq_refl) as [S' HI']. rewrite S'.
  destruct (shape data) as [|ny [|nx [|]]] eqn:HS; try discriminate.
  destruct (Req_EM_T (IZR ny * u) 0); [discriminate|]. injection E as <-. eexists. split; [reflexivity|]. split; [reflexivity|]. intros i Hi. cbn [shape mk2] in Hi.
  destruct i as [|i [|j [|]]]; try (cbn in Hi; tauto).
  cbn [get mk2 za_dot za_cis].
  assert (Hy : (0 < ny)%Z) by (inversion EP; auto). assert (Hx : (0 < nx)%Z) by (inversion EP as [|? ? _ EP2]; inversion EP2; auto).
  assert (PN : 0 < IZR (ny * nx)) by (apply IZR_lt; nia).
  assert (PZ : prodZ [ny; nx] = (ny * nx)%Z) by (cbn; lia).
  assert (L0 := l1_nonneg [ny; nx] (get data)).
  assert (M0 : 0 <= l1 [ny; nx] (get data) / IZR (ny * nx)) by (apply Rmult_le_pos; [auto|left; apply Rinv_0_lt_compat; auto]).
  set (ty := fun k => - (2 * PI) / (IZR ny * u) * (IZR i - ys) * (np_ifftshift ny IZR k - IZR (ny / 2))).
  set (tx := fun l => - (2 * PI) * (np_ifftshift nx (fun j0 => IZR j0 - IZR (nx / 2)) l / IZR nx) * ((IZR j - xs) / u)).
  rewrite (sumC_ext nx _ (fun l => Cmult (sumC ny (fun k => Cmult (cis (ty k)) (idft [ny; nx] (get data) [k; l]))) (cis (tx l)))).
  2:{ intros l Hl. f_equal. apply sumC_ext. intros k Hk. f_equal. unfold g2. rewrite (proj2 (get_ffts_inv hf nt np data)), HS. reflexivity. }
  refine (Rle_trans _ _ _ (matrix_bound eps T [ny; nx] B ny nx (g2 (za_ifft B data)) (fun k l => idft [ny; nx] (get data) [k; l])
    ty tx (l1 [ny; nx] (get data) / IZR (ny * nx)) (1 + eps) HB (or_introl eq_refl) (or_intror (or_introl eq_refl)) Hy Hx M0 ltac:(lra) _ _ _) _).
  - intros k Hk. unfold ty, np_ifftshift. rewrite ifftshift_fidx by auto.
    replace (- (2 * PI) / (IZR ny * u) * (IZR i - ys) * IZR (fidx ny k)) with (- (2 * PI) * (fftfreq ny k * ((IZR i - ys) / u))).
    + apply phase_le; auto. apply HTy. destruct Hi; auto.
    + unfold fftfreq. assert (P : IZR ny <> 0) by (apply IZR_neq; lia). field. split; auto. intros ->. apply n. ring.
  - intros l Hl. unfold tx, np_ifftshift. rewrite ifftshift_fidx by auto.
    replace (- (2 * PI) * (IZR (fidx nx l) / IZR nx) * ((IZR j - xs) / u)) with (- (2 * PI) * (fftfreq nx l * ((IZR j - xs) / u))) by (unfold fftfreq; ring).
    apply phase_le; auto. apply HTx. destruct Hi as [_ [? _]]; auto.
  - intros k l Hk Hl. rewrite <- PZ. split; [|apply (idft_le [ny; nx] (get data) [k; l] EP)].
    specialize (HI' [k; l]). unfold g2. rewrite Rmult_comm. replace (1 + eps - 1) with eps by ring. apply HI'. cbn. lia.
  - right. unfold mod_sum, l1. rewrite HS. cbn [pow]. field. lra.
Qed.
Print Assumptions C111_upsample_image.

(** *** chi2_shift *)
(** room for the phases of the refined grid along an axis of n pixels with s nodes of spacing 1/u *)
Definition phase_room (T : R) (n s : Z) (u : R) : Prop := PI * (IZR n + IZR s / (2 * u)) <= T.
(** error of the interpolated chi2 map at a point, in terms of the exact map *)
Definition zoom_rounding (eps : R) (zeromean : bool) (err : errarg) (im1 im2 : arr num) (ny nx : Z) (map0 : arr R) : R :=
  let d := IZR (ny * nx) * chi2_rounding eps zeromean err im1 im2 ny nx in
  d + (pixel_sum ny nx (fun k l => Rabs (g2 map0 k l)) + d) * ((1 + eps) ^ 5 - 1).

Lemma tiR_near sh a b p d : pos_shape sh -> (forall y, inb sh y -> Rabs (a y - b y) <= d) -> Rabs (trig_interpR sh a p - trig_interpR sh b p) <= IZR (prodZ sh) * d.
Proof.
  intros Hp H. unfold trig_interpR. rewrite <- sumNR_minus.
  rewrite (sumNR_ext sh _ (fun y => (a y - b y) * Re (dirichletN sh p y))) by (intros; ring).
  refine (Rle_trans _ _ _ (sumNR_abs _ _) _). rewrite <- sumNR_const by auto. apply sumNR_le. intros y Hy. rewrite Rabs_mult.
  rewrite <- (Rmult_1_r d). apply Rmult_le_compat; auto using Rabs_pos. refine (Rle_trans _ _ _ (re_le_Cmod _) _). apply dirichletN_le1; auto.
Qed.

Lemma tail_near B eps T e us nf re rc mas mns ny nx c c' t1 t2 t3 u s1 s2 t d :
  (0 < ny)%Z -> (0 < nx)%Z -> shape c = [ny; nx] -> shape c' = [ny; nx] -> 0 <= d ->
  (forall k l, (0 <= k < ny)%Z -> (0 <= l < nx)%Z -> Rabs (g2 c' k l - g2 c k l) <= d) ->
  accurate_zoom eps T [ny; nx] B -> explicit_grid us ny nx u s1 s2 -> phase_room T ny s1 u -> phase_room T nx s2 u -> one_sigma e t ->
  exists ym xm i j rest, is_argmin2 ny nx (g2 c') (ym, xm) /\ (0 <= i < s1)%Z /\ (0 <= j < s2)%Z /\
    chi2_shift_tail_with B e [ny; nx] (Chi2All c' t1 t2 t3) us nf false re rc mas mns = Ok (RNum (grid_shift nx xm s2 u j) :: RNum (grid_shift ny ym s1 u i) :: rest) /\
    let D := IZR (ny * nx) * d + (pixel_sum ny nx (fun k l => Rabs (g2 c k l)) + IZR (ny * nx) * d) * ((1 + eps) ^ 5 - 1) in
    forall a b, (0 <= a < s1)%Z -> (0 <= b < s2)%Z ->
      chi2_at ny nx c (grid_shift ny ym s1 u i) (grid_shift nx xm s2 u j) <= chi2_at ny nx c (grid_shift ny ym s1 u a) (grid_shift nx xm s2 u b) + 2 * D.
Proof.
  intros Hy Hx Sc Sc' Hd0 Hd HB Hg HTy HTx Ht. assert (e0 := proj1 HB).
  destruct (explicit_window_ok e us ny nx u s1 s2 (g2 c') mas mns nf Hy Hx Hg) as [W [Hu [H1 H2]]].
  apply one_sigma_thr in Ht. destruct Ht as [Ht Ht0].
  assert (Sa := argmin2_spec ny nx (g2 c') Hy Hx). unfold chi2_shift_tail_with.
  destruct (argmin2 ny nx (g2 c')) as [ym xm] eqn:Ea.
  assert (Hwin : (match us with
      | UAuto => let! _ := verbose_check false ny nx (g2 c') in
                 let! u := auto_factor mas (auto_size e ny nx (g2 c') mns nf) in
                 Ok (u, [mas; mas])
      | u => explicit_window u ny nx
      end) = Ok (u, [s1; s2])) by (destruct us; exact W).
  rewrite Hwin. cbn [bind].
  destruct (zoom2_ok (e_fftw e) (RtoCa c') ny nx (zcen ny ym) (zcen nx xm) u (Some [s1; s2]) s1 s2 1 false true true)
    as [xs [r [Z1 [Z2 [Z3 Z4]]]]]; auto; try lra.
  assert (HS : shape (RtoCa c') = [ny; nx]) by exact Sc'.
  assert (NODE : forall n m s i, (0 <= m < n)%Z -> (0 <= i < s)%Z -> phase_room T n s u -> PI * Rabs (grid_at (zcen n m) u s i) <= T).
  { intros n m s i Hm Hi HR. refine (Rle_trans _ _ _ _ HR). apply Rmult_le_compat_l; [left; apply PI_RGT_0|]. unfold grid_at. rewrite zcen_val.
    refine (Rle_trans _ _ _ (Rabs_triang _ _) _). apply Rplus_le_compat.
    - assert (M1 : IZR m <= IZR n - 1) by (rewrite <- minus_IZR; apply IZR_le; lia). assert (M0 : 0 <= IZR m) by (apply IZR_le; lia). apply Rabs_le. destruct (Z.even n); lra.
    - unfold Rdiv at 1. rewrite Rabs_mult, (Rabs_right (/ u)) by (left; apply Rinv_0_lt_compat; auto).
      replace (IZR s / (2 * u)) with (IZR s / 2 * / u) by (field; lra). apply Rmult_le_compat_r; [left; apply Rinv_0_lt_compat; auto|].
      assert (I1 : IZR i <= IZR s - 1) by (rewrite <- minus_IZR; apply IZR_le; lia). assert (I0 : 0 <= IZR i) by (apply IZR_le; lia). apply Rabs_le. lra. }
  assert (PW : forall i, inb (shape xs) i -> PI * Rabs (get xs i) <= T).
  { rewrite Z2. destruct Sa as [Sa1 [Sa2 _]]. cbn [fst snd] in *. intros i Hi. destruct i as [|ax [|i [|j [|]]]]; try (cbn in Hi; tauto). destruct Hi as [Hd' [Hi [Hj _]]].
    destruct (Z4 i j Hi Hj) as [G0 [G1 _]]. assert (ax = 0 \/ ax = 1)%Z as [-> | ->] by lia; [rewrite G0|rewrite G1]; apply NODE; auto. }
  assert (HB' : accurate_zoom eps T (shape (RtoCa c')) B) by (rewrite HS; exact HB).
  destruct (C111_zoom B eps T (e_fftw e) (RtoCa c') 1 false true true HB') as [ZP _].
  unfold with_xouts, pick_real in Z1. destruct (ZP _ _ _ _ _ (ltac:(rewrite Z1; exact PW)) Z1) as [r' [Z5 Z6]].
  destruct r' as [ups|]; [|cbn in Z6; contradiction]. destruct Z6 as [U1 U2]. cbn [shape amap] in U1. rewrite Z3 in U1. rewrite U1 in U2.
  assert (Hz : zoomnd_with B (RtoCa c') [IZR ym - cen ny; IZR xm - cen nx] (fun x => x) u (Some [s1; s2]) true true = Ok (Some xs, RealArr ups)).
  { unfold zoomnd_with. unfold ndim. rewrite HS. cbn [length Nat.ltb Nat.leb Nat.eqb negb andb zipw].
    rewrite <- Z5. unfold zcen. rewrite !minus_IZR. reflexivity. }
  rewrite Hz. cbn [bind].
  destruct (Z.leb_spec s1 0); [lia|]. destruct (Z.leb_spec s2 0); [lia|]. cbn [orb]. unfold verbose_check. cbn [andb bind].
  destruct (errors_ok e ups u 1 2 s1 s2 t U1 H1 H2 Hu Ht Ht0) as [ylo [yhi [xlo [xhi [_ X2]]]]]. cbv zeta in X2. rewrite X2. cbn [bind].
  assert (Sb := argmin2_spec s1 s2 (g2 ups) H1 H2). destruct (argmin2 s1 s2 (g2 ups)) as [i j] eqn:Ei. destruct Sb as [B1 [B2 [B3 _]]]. cbn [fst snd] in *.
  destruct (Z4 i j B1 B2) as [G0 [G1 _]]. rewrite G0, G1.
  exists ym, xm, i, j. eexists. split; [exact Sa|]. split; [exact B1|]. split; [exact B2|]. split.
  { rewrite <- !node_grid. unfold node. f_equal. cbn [app]. f_equal; [f_equal; ring|]. f_equal. f_equal. ring. }
  cbv zeta. intros a b Ha Hb.
  set (D := IZR (ny * nx) * d + _).
  assert (PZ : prodZ [ny; nx] = (ny * nx)%Z) by (cbn; lia).
  assert (PN : 0 < IZR (ny * nx)) by (apply IZR_lt; nia).
  assert (NEAR : forall y x, (0 <= y < s1)%Z -> (0 <= x < s2)%Z -> Rabs (g2 ups y x - chi2_at ny nx c (grid_shift ny ym s1 u y) (grid_shift nx xm s2 u x)) <= D).
  { intros y x Hyy Hxx.
    assert (EM : forall cc, chi2_at ny nx cc (grid_shift ny ym s1 u y) (grid_shift nx xm s2 u x) = trig_interpR [ny; nx] (get cc) [grid_at (zcen ny ym) u s1 y; grid_at (zcen nx xm) u s2 x]).
    { intros cc. unfold chi2_at. rewrite <- !node_grid. unfold node. rewrite !cen_int. f_equal. f_equal; [|f_equal]; ring. }
    rewrite EM. set (P := [grid_at (zcen ny ym) u s1 y; grid_at (zcen nx xm) u s2 x]).
    assert (T1 : Rabs (trig_interpR [ny; nx] (get c') P - trig_interpR [ny; nx] (get c) P) <= IZR (ny * nx) * d).
    { rewrite <- PZ. apply tiR_near; [apply pos2; auto|]. intros q Hq. apply inb2' in Hq. destruct Hq as [k [l [-> [Hk Hl]]]]. apply Hd; auto. }
    assert (T2 : Rabs (g2 ups y x - trig_interpR [ny; nx] (get c') P) <= mod_sum (RtoCa c') * ((1 + eps) ^ 5 - 1)).
    { specialize (U2 [y; x] ltac:(cbn; lia)). unfold ndim in U2. rewrite HS in U2. cbn [length Nat.mul Nat.add] in U2. unfold g2.
      destruct (Z4 y x Hyy Hxx) as [_ [_ Z7]]. unfold g2 in Z7. cbn [amap get] in U2. rewrite Z7 in U2.
      unfold P. rewrite <- interpN_realpart by auto using pos2. exact U2. }
    assert (T3 : mod_sum (RtoCa c') <= pixel_sum ny nx (fun k l => Rabs (g2 c k l)) + IZR (ny * nx) * d).
    { unfold mod_sum. rewrite HS, sum2_sumNR. replace (IZR (ny * nx) * d) with (pixel_sum ny nx (fun _ _ => d)) by (change (pixel_sum ny nx) with (sum2 ny nx); rewrite sum2_const by lia; reflexivity).
      change (pixel_sum ny nx) with (sum2 ny nx). rewrite <- sum2_plus. apply sum2_le. intros k l Hk Hl. cbn [RtoCa amap get]. rewrite Cmod_R.
      specialize (Hd k l Hk Hl). unfold g2 in *. assert (Q := Rabs_triang (get c' [k; l] - get c [k; l]) (get c [k; l])).
      replace (get c' [k; l] - get c [k; l] + get c [k; l]) with (get c' [k; l]) in Q by ring. lra. }
    assert (P5 := pow_ge1 eps 5 e0).
    assert (T4 := Rmult_le_compat_r ((1 + eps) ^ 5 - 1) _ _ ltac:(lra) T3).
    assert (Q := Rabs_triang (g2 ups y x - trig_interpR [ny; nx] (get c') P) (trig_interpR [ny; nx] (get c') P - trig_interpR [ny; nx] (get c) P)).
    replace (g2 ups y x - trig_interpR [ny; nx] (get c') P + (trig_interpR [ny; nx] (get c') P - trig_interpR [ny; nx] (get c) P)) with (g2 ups y x - trig_interpR [ny; nx] (get c) P) in Q by ring.
    unfold D. lra. }
  assert (N1 := NEAR i j B1 B2). assert (N2 := NEAR a b Ha Hb). assert (N3 := B3 a b Ha Hb). apply Rcomplements.Rabs_le_between in N1. apply Rcomplements.Rabs_le_between in N2. lra.
Qed.

(** the map and its error *)
Lemma map_near A eps e im1 im2 err nt zm np huge ny nx :
  shape im1 = [ny; nx] -> shape im2 = [ny; nx] -> (0 < ny)%Z -> (0 < nx)%Z -> err_ok err ny nx -> size_ok e huge ny nx -> accurate eps [ny; nx] A ->
  exists c t1 t2 t3 c' t1' t2' t3', chi2n_map e im1 im2 err BWrap nt zm np true false huge = Ok (Chi2All c t1 t2 t3) /\ shape c = [ny; nx] /\
    chi2n_map_with A (e_gb e) im1 im2 err BWrap zm true false huge = Ok (Chi2All c' t1' t2' t3') /\ shape c' = [ny; nx] /\
    0 <= chi2_rounding eps zm err im1 im2 ny nx /\
    forall k l, (0 <= k < ny)%Z -> (0 <= l < nx)%Z -> Rabs (g2 c' k l - g2 c k l) <= chi2_rounding eps zm err im1 im2 ny nx.
Proof.
  intros H1 H2 Hy Hx He Hh HA.
  destruct (chi2n_map_ok e im1 im2 err nt zm np true false huge ny nx H1 H2 Hy Hx He Hh ltac:(discriminate)) as [c [t1 [t2 [t3 [E [S1 _]]]]]].
  assert (HA' : accurate eps (padded BWrap [ny; nx] [ny; nx]) A) by (cbn; rewrite !Z.max_id; exact HA).
  destruct (C103_chi2n_map A eps e im1 im2 err BWrap nt zm np true huge ny nx _ H1 H2 Hy Hx HA' E) as [r' [E' [S' B]]].
  destruct r' as [c'|c' t1' t2' t3'].
  { exfalso. revert E'. unfold chi2n_map_with. destruct (negb _); [discriminate|]. destruct err as [|s|er].
    - destruct (correlate2d_with _ _ _ _ _ _); cbn [bind]; discriminate.
    - destruct (Req_EM_T s 0); [discriminate|]. destruct (correlate2d_with _ _ _ _ _ _); cbn [bind]; discriminate.
    - destruct (negb _); [discriminate|]. destruct (correlate2d_with _ _ _ _ _ _); cbn [bind]; [|discriminate]. destruct (correlate2d_with _ _ _ _ _ _); cbn [bind]; discriminate. }
  exists c, t1, t2, t3, c', t1', t2', t3'. cbn [chi2_of_res] in *. repeat split; auto.
  refine (Rle_trans _ _ _ _ (B 0%Z 0%Z ltac:(lia) ltac:(lia))). apply Rabs_pos.
Qed.

Theorem C111_chi2_shift :
  forall A B eps T e im1 im2 err us nthreads use_np zeromean nfitted ret_err ret_arr mas mns allow_huge ny nx u s1 s2 t,
  shape im1 = [ny; nx] -> shape im2 = [ny; nx] -> (0 < ny)%Z -> (0 < nx)%Z -> err_ok err ny nx -> size_ok e allow_huge ny nx ->
  explicit_grid us ny nx u s1 s2 -> phase_room T ny s1 u -> phase_room T nx s2 u -> one_sigma e t -> accurate eps [ny; nx] A -> accurate_zoom eps T [ny; nx] B ->
  exists map0 t1 t2 t3 ym xm dx dy rest i j,
    chi2n_map e im1 im2 err BWrap nthreads zeromean use_np true false allow_huge = Ok (Chi2All map0 t1 t2 t3) /\
    chi2_shift_with A B e im1 im2 err us BWrap zeromean nfitted false ret_err ret_arr mas mns allow_huge = Ok (RNum dx :: RNum dy :: rest) /\
    (0 <= ym < ny)%Z /\ (0 <= xm < nx)%Z /\
    (forall k l, (0 <= k < ny)%Z -> (0 <= l < nx)%Z -> g2 map0 ym xm <= g2 map0 k l + 2 * chi2_rounding eps zeromean err im1 im2 ny nx) /\
    (0 <= i < s1)%Z /\ (0 <= j < s2)%Z /\ dy = grid_shift ny ym s1 u i /\ dx = grid_shift nx xm s2 u j /\
    (forall a b, (0 <= a < s1)%Z -> (0 <= b < s2)%Z ->
       chi2_at ny nx map0 dy dx <= chi2_at ny nx map0 (grid_shift ny ym s1 u a) (grid_shift nx xm s2 u b) + 2 * zoom_rounding eps zeromean err im1 im2 ny nx map0).
Proof.
  intros A B eps T e im1 im2 err us nt np zm nf re rc mas mns huge ny nx u s1 s2 t H1 H2 Hy Hx He Hh Hg HTy HTx Ht HA HB.
  destruct (map_near A eps e im1 im2 err nt zm np huge ny nx H1 H2 Hy Hx He Hh HA) as [c [t1 [t2 [t3 [c' [t1' [t2' [t3' [E [Sc [E' [Sc' [D0 D]]]]]]]]]]]]].
  destruct (tail_near B eps T e us nf re rc mas mns ny nx c c' t1' t2' t3' u s1 s2 t _ Hy Hx Sc Sc' D0 D HB Hg HTy HTx Ht) as [ym [xm [i [j [rest [Am [Hi [Hj [Et M]]]]]]]]].
  exists c, t1, t2, t3, ym, xm, (grid_shift nx xm s2 u j), (grid_shift ny ym s1 u i), rest, i, j. split; [exact E|].
  split; [unfold chi2_shift_with; rewrite E'; cbn [bind]; rewrite H1; exact Et|].
  destruct Am as [A1 [A2 [A3 _]]]. cbn [fst snd] in *. split; [exact A1|]. split; [exact A2|]. split.
  { intros k l Hk Hl. specialize (A3 k l Hk Hl). assert (N1 := D k l Hk Hl). assert (N2 := D ym xm A1 A2).
    apply Rcomplements.Rabs_le_between in N1. apply Rcomplements.Rabs_le_between in N2. lra. }
  split; [exact Hi|]. split; [exact Hj|]. split; [reflexivity|]. split; [reflexivity|]. exact M.
Qed.
Print Assumptions C111_chi2_shift.

(** if the best roll and then the best node of its grid win by more than twice the rounding error, the offset is the exact one *)
Theorem C111_chi2_shift_same_answer :
  forall A B eps T e im1 im2 err us nthreads use_np zeromean nfitted ret_err ret_arr mas mns allow_huge ny nx u s1 s2 t map0 t1 t2 t3 ym xm i j,
  shape im1 = [ny; nx] -> shape im2 = [ny; nx] -> (0 < ny)%Z -> (0 < nx)%Z -> err_ok err ny nx -> size_ok e allow_huge ny nx ->
  explicit_grid us ny nx u s1 s2 -> phase_room T ny s1 u -> phase_room T nx s2 u -> one_sigma e t -> accurate eps [ny; nx] A -> accurate_zoom eps T [ny; nx] B ->
  chi2n_map e im1 im2 err BWrap nthreads zeromean use_np true false allow_huge = Ok (Chi2All map0 t1 t2 t3) ->
  (0 <= ym < ny)%Z -> (0 <= xm < nx)%Z -> (0 <= i < s1)%Z -> (0 <= j < s2)%Z ->
  let d := chi2_rounding eps zeromean err im1 im2 ny nx in let D := zoom_rounding eps zeromean err im1 im2 ny nx map0 in
  let chi2_node := fun a b => chi2_at ny nx map0 (grid_shift ny ym s1 u a) (grid_shift nx xm s2 u b) in
  (forall k l, (0 <= k < ny)%Z -> (0 <= l < nx)%Z -> (k, l) <> (ym, xm) -> g2 map0 ym xm + 2 * d < g2 map0 k l) ->
  (forall a b, (0 <= a < s1)%Z -> (0 <= b < s2)%Z -> (a, b) <> (i, j) -> chi2_node i j + 2 * D < chi2_node a b) ->
  exists rest rest',
    chi2_shift_with A B e im1 im2 err us BWrap zeromean nfitted false ret_err ret_arr mas mns allow_huge =
      Ok (RNum (grid_shift nx xm s2 u j) :: RNum (grid_shift ny ym s1 u i) :: rest) /\
    chi2_shift e im1 im2 err us BWrap nthreads use_np zeromean nfitted false ret_err ret_arr mas mns allow_huge =
      Ok (RNum (grid_shift nx xm s2 u j) :: RNum (grid_shift ny ym s1 u i) :: rest').
Proof.
  intros A B eps T e im1 im2 err us nt np zm nf re rc mas mns huge ny nx u s1 s2 t c t1 t2 t3 ym xm i j H1 H2 Hy Hx He Hh Hg HTy HTx Ht HA HB Em Hym Hxm Hi Hj d D node G1 G2.
  assert (D0 : 0 <= d /\ 0 <= D).
  { destruct (map_near A eps e im1 im2 err nt zm np huge ny nx H1 H2 Hy Hx He Hh HA) as [_ [_ [_ [_ [_ [_ [_ [_ [_ [_ [_ [_ [D0 _]]]]]]]]]]]]].
    split; [exact D0|]. unfold D, zoom_rounding. assert (e0 := proj1 HA). assert (P5 := pow_ge1 eps 5 e0). fold d. fold d in D0.
    assert (PN : 0 <= IZR (ny * nx)) by (apply IZR_le; nia). assert (Q := Rmult_le_pos _ _ PN D0).
    assert (Q2 : 0 <= pixel_sum ny nx (fun k l => Rabs (g2 c k l))) by (apply sumR_nonneg; intros; apply sumR_nonneg; intros; apply Rabs_pos).
    assert (Q3 : 0 <= (pixel_sum ny nx (fun k l => Rabs (g2 c k l)) + IZR (ny * nx) * d) * ((1 + eps) ^ 5 - 1)) by (apply Rmult_le_pos; lra). cbv zeta. lra. }
  destruct D0 as [D0 D1].
  assert (ND2 : forall p q : Z * Z, {p = q} + {p <> q}) by (decide equality; apply Z.eq_dec).
  destruct (C111_chi2_shift A B eps T e im1 im2 err us nt np zm nf re rc mas mns huge ny nx u s1 s2 t H1 H2 Hy Hx He Hh Hg HTy HTx Ht HA HB)
    as [c1 [a1 [a2 [a3 [ym' [xm' [dx [dy [rest [i' [j' [F1 [F2 [F3 [F4 [F5 [F6 [F7 [F8 [F9 F10]]]]]]]]]]]]]]]]]]]].
  rewrite Em in F1. injection F1 as <- <- <- <-.
  assert (E1 : (ym', xm') = (ym, xm)).
  { destruct (ND2 (ym', xm') (ym, xm)) as [Q|Q]; [exact Q|exfalso]. specialize (G1 ym' xm' F3 F4 Q). specialize (F5 ym xm Hym Hxm). fold d in F5. lra. }
  injection E1 as -> ->.
  assert (E2 : (i', j') = (i, j)).
  { destruct (ND2 (i', j') (i, j)) as [Q|Q]; [exact Q|exfalso]. specialize (G2 i' j' F6 F7 Q). specialize (F10 i j Hi Hj). fold D in F10. rewrite F8, F9 in F10. unfold node in G2. lra. }
  injection E2 as -> ->. subst dx dy.
  destruct (C39_minimum_on_grid e im1 im2 err us nt np zm nf re rc mas mns huge ny nx u s1 s2 t H1 H2 Hy Hx He Hh Hg Ht)
    as [c1 [b1 [b2 [b3 [ym' [xm' [dx [dy [rest' [i' [j' [K1 [K2 [K3 [K6 [K7 [K8 [K9 K10]]]]]]]]]]]]]]]]]].
  rewrite Em in K1. injection K1 as <- <- <- <-.
  assert (E1 : (ym', xm') = (ym, xm)).
  { destruct (ND2 (ym', xm') (ym, xm)) as [Q|Q]; [exact Q|exfalso]. destruct K2 as [A1 [A2 [A3 _]]]. cbn [fst snd] in *. specialize (G1 ym' xm' A1 A2 Q). specialize (A3 ym xm Hym Hxm). lra. }
  injection E1 as -> ->.
  assert (E2 : (i', j') = (i, j)).
  { destruct (ND2 (i', j') (i, j)) as [Q|Q]; [exact Q|exfalso]. specialize (G2 i' j' K6 K7 Q). specialize (K10 i j Hi Hj). rewrite K8, K9 in K10. unfold node in G2. lra. }
  injection E2 as -> ->. subst dx dy. exists rest, rest'. split; [exact F2|exact K3].
Qed.
Print Assumptions C111_chi2_shift_same_answer.

(** the exact operations are accurate with eps = 0 *)
Theorem C111_exact_operations :
  forall has_fftw nthreads use_np T sh, accurate_zoom 0 T sh (exact_zarith has_fftw nthreads use_np).
Proof.
  intros hf nt np T sh. split; [lra|]. split; [|split].
  - intros a Ha. cbn [exact_zarith za_ifft]. destruct (get_ffts_inv hf nt np a) as [I1 I2]. split; [rewrite I1; exact Ha|]. intros x Hx. rewrite I2, Ha.
    replace (Cminus (idft sh (get a) x) (idft sh (get a) x)) with (RtoC 0) by ring. rewrite Cmod_0. lra.
  - intros t _. cbn [exact_zarith za_cis]. replace (Cminus (cis t) (cis t)) with (RtoC 0) by ring. rewrite Cmod_0. lra.
  - intros n a b _ _. cbn [exact_zarith za_dot]. match goal with |- Cmod ?z <= _ => replace z with (RtoC 0) by ring end. rewrite Cmod_0. lra.
Qed.
Print Assumptions C111_exact_operations.

(** operations that are all too large by a factor 1 + eps *)
Definition inflated (eps : R) : zarith :=
  ZArith (fun a => Arr (shape a) (fun x => Cmult (RtoC (1 + eps)) (idft (shape a) (get a) x))) (fun t => Cmult (RtoC (1 + eps)) (cis t))
    (fun n a b => Cmult (RtoC (1 + eps)) (sumC n (fun k => Cmult (a k) (b k)))).
Lemma off_by eps z : 0 <= eps -> Cmod (Cminus (Cmult (RtoC (1 + eps)) z) z) = eps * Cmod z.
Proof.
  intros H. replace (Cminus (Cmult (RtoC (1 + eps)) z) z) with (Cmult (RtoC eps) z) by (rewrite RtoC_plus; ring).
  rewrite Cmod_mult, Cmod_R, Rabs_right by lra. reflexivity.
Qed.
Example C111_nonvacuous : forall eps T sh, 0 <= eps -> pos_shape sh -> accurate_zoom eps T sh (inflated eps).
Proof.
  intros eps T sh He Hp. split; [exact He|]. split; [|split].
  - intros a Ha. cbn [inflated za_ifft shape get]. split; [exact Ha|]. intros x Hx. rewrite Ha, off_by by auto. apply Rmult_le_compat_l; auto. apply idft_le; auto.
  - intros t _. cbn [inflated za_cis]. rewrite off_by, Cmod_cis by auto. lra.
  - intros n a b _ Hn. cbn [inflated za_dot]. rewrite off_by by auto. apply Rmult_le_compat_l; auto. refine (Rle_trans _ _ _ (Cmod_sumC _ _) _). right. apply sumR_ext. intros. apply Cmod_mult.
Qed.

(** two equal 2x2 images with one bright pixel and every operation wrong by a part in a thousand: the hypotheses of
    [C111_chi2_shift_same_answer] hold and the offset is the exact one *)
Example C111_chi2_shift_nonvacuous :
  forall e nthreads use_np nfitted max_auto_size max_nsig t, one_sigma e t ->
  let im := mk2 2 2 (fun y x => if (y =? 0)%Z && (x =? 0)%Z then Fin 1 else Fin 0) in
  exists rest rest',
    chi2_shift_with (bumped (1 / 1000)) (inflated (1 / 1000)) e im im ErrNone (UInt 1) BWrap false nfitted false true true max_auto_size max_nsig true = Ok (RNum 0 :: RNum 0 :: rest) /\
    chi2_shift e im im ErrNone (UInt 1) BWrap nthreads use_np false nfitted false true true max_auto_size max_nsig true = Ok (RNum 0 :: RNum 0 :: rest').
Proof.
  intros e nt np nf mas mns t Ht im.
  assert (P22 : pos_shape [2; 2]%Z) by (apply pos2; lia).
  destruct (chi2n_map_ok e im im ErrNone nt false np true false true 2 2 eq_refl eq_refl ltac:(lia) ltac:(lia) I (or_introl eq_refl) ltac:(discriminate))
    as [c [t1 [t2 [t3 [E [Sc [_ [_ V]]]]]]]].
  assert (T : forall f, pixel_sum 2 2 f = f 0%Z 0%Z + f 0%Z 1%Z + (f 1%Z 0%Z + f 1%Z 1%Z)).
  { intros f. unfold pixel_sum. change 2%Z with (0 + 1 + 1)%Z. rewrite !sumR_S, !sumR_0 by lia. cbn. ring. }
  assert (U : forall y x, used_image false ErrNone im 2 2 y x = if (y =? 0)%Z && (x =? 0)%Z then 1 else 0).
  { intros y x. unfold used_image, err_zero, prep, px. cbn [im get mk2]. destruct (_ && _); reflexivity. }
  assert (VV : forall k l, (0 <= k < 2)%Z -> (0 <= l < 2)%Z -> g2 c k l = if (k =? 0)%Z && (l =? 0)%Z then 0 else 2).
  { intros k l Hk Hl. destruct (V k l Hk Hl) as [_ [_ ->]]. cbv zeta. unfold chi2_of. rewrite !T.
    assert (k = 0 \/ k = 1)%Z as [-> | ->] by lia; assert (l = 0 \/ l = 1)%Z as [-> | ->] by lia;
    change ((2 - 1) / 2 - 0)%Z with 0%Z; change ((2 - 1) / 2 - 1)%Z with (-1)%Z; rewrite !U; cbn; field. }
  assert (D : chi2_rounding (1 / 1000) false ErrNone im im 2 2 = 2 * ((1 + 1 / 1000) ^ 4 - 1)).
  { unfold chi2_rounding. cbv zeta. rewrite !T, !U. cbn [Z.eqb andb sigma_of]. replace (1 / 1 ^ 2) with 1 by field. replace (0 / 1 ^ 2) with 0 by field.
    rewrite !Rabs_R0, !Rabs_R1. ring. }
  assert (DD : zoom_rounding (1 / 1000) false ErrNone im im 2 2 c = 4 * (2 * ((1 + 1 / 1000) ^ 4 - 1)) + (6 + 4 * (2 * ((1 + 1 / 1000) ^ 4 - 1))) * ((1 + 1 / 1000) ^ 5 - 1)).
  { unfold zoom_rounding. cbv zeta. rewrite D, T, !VV by lia. cbn [Z.eqb andb]. rewrite Rabs_R0, Rabs_right by lra. change (IZR (2 * 2)) with 4. ring. }
  assert (G : forall i, grid_shift 2 0 2 1 i = - IZR i).
  { intros i. unfold grid_shift. change ((2 - 1) / 2)%Z with 0%Z. cbn [Z.even]. field. }
  assert (N : forall a b, (0 <= a < 2)%Z -> (0 <= b < 2)%Z -> chi2_at 2 2 c (grid_shift 2 0 2 1 a) (grid_shift 2 0 2 1 b) = if (a =? 0)%Z && (b =? 0)%Z then 0 else 2).
  { intros a b Ha Hb. rewrite !G, <- VV by lia. unfold chi2_at. change ((2 - 1) / 2)%Z with 0%Z. rewrite (tiR_ext [2; 2]%Z (get c) (img2 (g2 c))).
    - replace (0 - - IZR a) with (IZR a) by ring. replace (0 - - IZR b) with (IZR b) by ring. rewrite tiR_int2 by lia. rewrite !Z.mod_small by lia. reflexivity.
    - intros y Hin. apply inb2 in Hin. destruct Hin as [y1 [x1 [-> _]]]. reflexivity. }
  assert (ND : forall a b, (0 <= a < 2)%Z -> (0 <= b < 2)%Z -> (a, b) <> (0, 0)%Z -> (a =? 0)%Z && (b =? 0)%Z = false).
  { intros a b Ha Hb Q. destruct (Z.eqb_spec a 0) as [->|]; [|reflexivity]. destruct (Z.eqb_spec b 0) as [->|]; [exfalso; apply Q; reflexivity|reflexivity]. }
  destruct (C111_chi2_shift_same_answer (bumped (1 / 1000)) (inflated (1 / 1000)) (1 / 1000) (PI * 3) e im im ErrNone (UInt 1) nt np false nf true true mas mns true 2 2 1 2 2 t c t1 t2 t3 0 0 0 0)
    as [rest [rest' [R1 R2]]]; try lia; try reflexivity; try exact I; auto.
  - left. reflexivity.
  - cbn. repeat split; lia.
  - unfold phase_room. apply Rmult_le_compat_l; [left; apply PI_RGT_0|lra].
  - unfold phase_room. apply Rmult_le_compat_l; [left; apply PI_RGT_0|lra].
  - apply bumped_accurate; auto; lra.
  - apply C111_nonvacuous; auto; lra.
  - intros k l Hk Hl Q. rewrite D, !VV, (ND k l) by (auto; lia). cbn [Z.eqb andb]. cbn [pow]. lra.
  - cbv zeta. intros a b Ha Hb Q. rewrite DD, !N, (ND a b) by (auto; lia). cbn [Z.eqb andb]. cbn [pow]. lra.
  - rewrite G in R1, R2. rewrite Ropp_0 in R1, R2. exists rest, rest'. split; [exact R1|exact R2].
Qed.
