(** Lemmas about register_images *)
From Coq Require Import ZArith Lia List Reals Lra Bool.
From Coquelicot Require Import Complex.
From Verif Require Import Base NDim DFT Kernel Num Py M_fast_ffts M_shift M_upsample Arg M_chi2 M_xcorr M_register
  Spec L_shift L_scale L_upsample Sum2 Spec2 Spec3 Spec4 L_chi2 L_chi2shift L_fshift.
Import ListNotations.
Open Scope R_scope.

(** *** Fourier form of [rcc] *)
Lemma cshift_shifted ny nx f ty tx i j : (0 < ny)%Z -> (0 < nx)%Z ->
  shifted [ny; nx] (fun y => RtoC (img2 f y)) [ty; tx] 0 [i; j] = cshift ny nx f ty tx i j.
Proof.
  intros Hy Hx. unfold shifted, cshift. rewrite Ropp_0, cis_0, Cmult_1_l.
  rewrite <- Dn_interp by (auto using pos2). reflexivity.
Qed.

Lemma rcc_sumNC ny nx f g ty tx : (0 < ny)%Z -> (0 < nx)%Z ->
  rcc ny nx f g ty tx = sumNC [ny; nx] (fun y => Cmult (shifted [ny; nx] (fun y => RtoC (img2 f y)) [ty; tx] 0 y) (RtoC (img2 g y))).
Proof.
  intros Hy Hx. unfold rcc. cbn [sumNC sumNG]. apply sumC_ext. intros i Hi. apply sumC_ext. intros j Hj.
  rewrite cshift_shifted by auto. reflexivity.
Qed.

Lemma rcc_fourier ny nx f g p q : (0 < ny)%Z -> (0 < nx)%Z ->
  Cmult (RtoC (/ IZR (prodZ [ny; nx])))
    (sumNC [ny; nx] (fun k => Cmult (Cmult (dft [ny; nx] (fun y => RtoC (img2 f y)) k) (Cconj (dft [ny; nx] (fun y => RtoC (img2 g y)) k)))
                                    (cis (2 * PI * fdot [ny; nx] k [p; q])))) =
  rcc ny nx f g (- p) (- q).
Proof.
  intros Hy Hx. assert (Hp := pos2 ny nx Hy Hx).
  rewrite (sumNC_ext _ _ (fun k => Cmult (dft [ny; nx] (shifted [ny; nx] (fun y => RtoC (img2 f y)) [- p; - q] 0) k)
                                         (Cconj (dft [ny; nx] (fun y => RtoC (img2 g y)) k)))).
  - rewrite parseval by auto. rewrite RtoC_inv_cancel by (apply prodZ_neq0; auto). rewrite rcc_sumNC by auto.
    apply sumNC_ext. intros y H. rewrite Cconj_RtoC. reflexivity.
  - intros k Hk. rewrite dft_shifted by auto. change [- p; - q] with (oppR [p; q]). rewrite fdot_opp.
    replace (- (2 * PI * - fdot [ny; nx] k [p; q])) with (2 * PI * fdot [ny; nx] k [p; q]) by ring. ring.
Qed.

(** *** usfac = 1 *)
Lemma rcc_grid1 ny nx f g r c : (0 < ny)%Z -> (0 < nx)%Z ->
  idft [ny; nx] (fun k => Cmult (dft [ny; nx] (fun y => RtoC (img2 f y)) k) (Cconj (dft [ny; nx] (fun y => RtoC (img2 g y)) k))) [r; c] =
  rcc ny nx f g (- IZR r) (- IZR c).
Proof.
  intros Hy Hx. rewrite <- rcc_fourier by auto. unfold idft. f_equal. apply sumNC_ext. intros k Hk. f_equal.
  rewrite <- fdot_cis by auto using pos2. reflexivity.
Qed.

(** *** the coarse (2x) grid *)
Lemma truncR_half n : (0 <= n)%Z -> truncR (IZR n / 2) = (n / 2)%Z.
Proof.
  intros H. unfold truncR. assert (0 <= IZR n) by (apply IZR_le; lia). destruct (Rle_dec 0 (IZR n / 2)); [|lra].
  change 2 with (IZR 2). apply floorR_div. lia.
Qed.

(** one axis of the embedding *)
Definition emb1 (m : Z) (a : Z -> C) (i : Z) : C :=
  if ((m - m / 2 <=? i) && (i <? m + (m - 1) / 2 + 1))%Z then a ((i - (m - m / 2) - m / 2) mod m)%Z else RtoC 0.

Lemma emb1_sum m a x : (0 < m)%Z ->
  sumC (m * 2) (fun k => Cmult (emb1 m a ((k + m * 2 / 2) mod (m * 2))) (cis (2 * PI * (IZR k * IZR x / IZR (m * 2))))) =
  sumC m (fun k => Cmult (a k) (cis (2 * PI * (fftfreq m k * (IZR x / 2))))).
Proof.
  intros Hm. assert (Hm' : IZR m <> 0) by (apply IZR_neq0; lia). rewrite Z.div_mul by lia.
  transitivity (sumC (m * 2) (fun k => Cmult (emb1 m a k) (cis (2 * PI * (IZR (k - m) * IZR x / IZR (m * 2)))))).
  { rewrite <- (sumC_mod_shift (m * 2) (fun k => Cmult (emb1 m a k) (cis (2 * PI * (IZR (k - m) * IZR x / IZR (m * 2))))) m) by lia.
    apply sumC_ext. intros k Hk. f_equal.
    apply (cis_congr _ _ ((k + m) / (m * 2) * x)%Z).
    assert (E := Z_div_mod_eq_full (k + m) (m * 2)). apply (f_equal IZR) in E. rewrite !plus_IZR, !mult_IZR in E.
    rewrite minus_IZR, !mult_IZR. set (q := IZR ((k + m) / (m * 2))) in *. set (w := IZR ((k + m) mod (m * 2))) in *.
    replace (IZR k) with (IZR m * 2 * q + w - IZR m) by lra. field. auto. }
  assert (Hs := half_sum m Hm). assert (H0 : (0 <= m / 2)%Z) by (apply Z.div_pos; lia). assert (H1 : (0 <= (m - 1) / 2)%Z) by (apply Z.div_pos; lia).
  replace (m * 2)%Z with ((m - m / 2) + (m + (m - (m - 1) / 2 - 1)))%Z at 1 by lia.
  rewrite sumC_split by lia. rewrite (sumC_split m) by lia.
  rewrite sumC_const0. 2:{ intros k Hk. unfold emb1. destruct (Z.leb_spec (m - m / 2) k); [lia|]. apply Cmult_0_l. }
  rewrite Cplus_0_l. rewrite (sumC_const0 (m - (m - 1) / 2 - 1)).
  2:{ intros k Hk. unfold emb1. destruct (Z.ltb_spec (m - m / 2 + (m + k)) (m + (m - 1) / 2 + 1)); [lia|]. rewrite andb_false_r. apply Cmult_0_l. }
  rewrite Cplus_0_r. rewrite <- (sumC_mod_shift m (fun k => Cmult (a k) (cis (2 * PI * (fftfreq m k * (IZR x / 2))))) (- (m / 2))) by auto.
  apply sumC_ext. intros j Hj. unfold emb1. destruct (Z.leb_spec (m - m / 2) (m - m / 2 + j)); [|lia].
  destruct (Z.ltb_spec (m - m / 2 + j) (m + (m - 1) / 2 + 1)); [|lia]. cbn [andb].
  replace (m - m / 2 + j - (m - m / 2) - m / 2)%Z with (j + - (m / 2))%Z by lia. f_equal. f_equal. f_equal.
  unfold fftfreq. replace (j + - (m / 2))%Z with (j - m / 2)%Z by lia. rewrite fidx_centred by auto.
  replace (m - m / 2 + j - m)%Z with (j - m / 2)%Z by lia. rewrite mult_IZR. field. auto.
Qed.

Lemma embed2_eq m n (a : Z -> Z -> C) i j : (0 < m)%Z -> (0 < n)%Z ->
  embed2 m n (fftshift2 m n a) i j = emb1 m (fun p => emb1 n (a p) j) i.
Proof.
  intros Hm Hn. unfold embed2, emb1. rewrite !truncR_IZR, !truncR_half by lia.
  destruct (((m - m / 2 <=? i) && (i <? m + (m - 1) / 2 + 1))%Z) eqn:E1.
  - cbn [andb]. rewrite <- ?andb_assoc. destruct (((n - n / 2 <=? j) && (j <? n + (n - 1) / 2 + 1))%Z) eqn:E2.
    + reflexivity.
    + reflexivity.
  - destruct (m - m / 2 <=? i)%Z, (i <? m + (m - 1) / 2 + 1)%Z; cbn [andb] in *; try discriminate; reflexivity.
Qed.

Lemma rcc_grid2 ny nx f g r c : (0 < ny)%Z -> (0 < nx)%Z ->
  let P := fun i j => Cmult (dft [ny; nx] (fun y => RtoC (img2 f y)) [i; j]) (Cconj (dft [ny; nx] (fun y => RtoC (img2 g y)) [i; j])) in
  idft [ny * 2; nx * 2]%Z (get (mk2 (ny * 2) (nx * 2) (ifftshift2 (ny * 2) (nx * 2) (embed2 ny nx (fftshift2 ny nx P))))) [r; c] =
  Cmult (RtoC (/ 4)) (rcc ny nx f g (- (IZR r / 2)) (- (IZR c / 2))).
Proof.
  intros Hy Hx P. rewrite <- rcc_fourier by auto. unfold idft.
  assert (HY : IZR ny <> 0) by (apply IZR_neq0; lia). assert (HX : IZR nx <> 0) by (apply IZR_neq0; lia).
  rewrite Cmult_assoc. f_equal.
  { rewrite <- RtoC_mult. f_equal. cbn [prodZ]. rewrite !mult_IZR. field. auto. }
  cbn [sumNC sumNG get mk2].
  transitivity (sumC (nx * 2) (fun l => Cmult (sumC (ny * 2) (fun k => Cmult (emb1 ny (fun p => emb1 nx (P p) ((l + nx * 2 / 2) mod (nx * 2))) ((k + ny * 2 / 2) mod (ny * 2)))
       (cis (2 * PI * (IZR k * IZR r / IZR (ny * 2)))))) (cis (2 * PI * (IZR l * IZR c / IZR (nx * 2)))))).
  { rewrite sumC_swap. apply sumC_ext. intros l Hl. rewrite <- sumC_scal_r. apply sumC_ext. intros k Hk.
    unfold ifftshift2, np_ifftshift. rewrite embed2_eq by auto. rewrite <- Cmult_assoc. f_equal.
    rewrite <- cis_plus. f_equal. cbn [phZ]. ring. }
  rewrite (sumC_ext (nx * 2) _ (fun l => Cmult (sumC ny (fun k => Cmult (emb1 nx (P k) ((l + nx * 2 / 2) mod (nx * 2))) (cis (2 * PI * (fftfreq ny k * (IZR r / 2))))))
      (cis (2 * PI * (IZR l * IZR c / IZR (nx * 2)))))).
  2:{ intros l Hl. rewrite emb1_sum by auto. reflexivity. }
  rewrite (sumC_ext (nx * 2) _ (fun l => sumC ny (fun k => Cmult (cis (2 * PI * (fftfreq ny k * (IZR r / 2)))) (Cmult (emb1 nx (P k) ((l + nx * 2 / 2) mod (nx * 2))) (cis (2 * PI * (IZR l * IZR c / IZR (nx * 2)))))))).
  2:{ intros l Hl. rewrite <- sumC_scal_r. apply sumC_ext. intros; ring. }
  rewrite sumC_swap. apply sumC_ext. intros k Hk. rewrite sumC_scal, emb1_sum by auto. rewrite <- sumC_scal. apply sumC_ext. intros l Hl.
  unfold P. cbn [fdot]. rewrite Rplus_0_r, Rmult_plus_distr_l, cis_plus. ring.
Qed.

(** *** the fine grid *)
Lemma rcc_fine ny nx f g p q : (0 < ny)%Z -> (0 < nx)%Z ->
  Cconj (ups_val ny nx (fun k => Cmult (dft [ny; nx] (fun y => RtoC (img2 g y)) k) (Cconj (dft [ny; nx] (fun y => RtoC (img2 f y)) k))) p q) =
  Cmult (RtoC (IZR (ny * nx))) (rcc ny nx f g (- p) (- q)).
Proof.
  intros Hy Hx. rewrite <- rcc_fourier by auto.
  assert (E : prodZ [ny; nx] = (ny * nx)%Z) by (cbn [prodZ]; lia). rewrite E.
  rewrite Cmult_assoc, <- RtoC_mult, Rinv_r, Cmult_1_l by (apply IZR_neq0; nia).
  unfold ups_val. rewrite Cconj_sumC. cbn [sumNC sumNG]. rewrite (sumC_swap ny nx). apply sumC_ext. intros l Hl.
  rewrite Cconj_mult, Cconj_sumC, <- sumC_scal_r. apply sumC_ext. intros k Hk.
  rewrite !Cconj_mult, Cconj_inv. cbn [fdot]. rewrite Rplus_0_r, Rmult_plus_distr_l, cis_plus.
  replace (- (2 * PI) * (fftfreq ny k * p)) with (- (2 * PI * (fftfreq ny k * p))) by ring.
  replace (- (2 * PI) * (fftfreq nx l * q)) with (- (2 * PI * (fftfreq nx l * q))) by ring.
  rewrite !cis_opp_conj, !Cconj_inv. ring.
Qed.

(** *** frequencies of the registered image *)
Lemma ceilR_half n : ceilR (IZR n / 2) = ((n + 1) / 2)%Z.
Proof.
  apply ceilR_unique. assert (H : (n + 1 = 2 * ((n + 1) / 2) + (n + 1) mod 2)%Z) by (apply Z.div_mod; lia).
  assert (H2 := Z.mod_pos_bound (n + 1) 2 ltac:(lia)). set (q := ((n + 1) / 2)%Z) in *. set (w := ((n + 1) mod 2)%Z) in *.
  assert (G : (n = 2 * q + w - 1)%Z) by lia. rewrite G. rewrite minus_IZR, plus_IZR, mult_IZR.
  assert (0 <= IZR w <= 1) by (split; apply IZR_le; lia). lra.
Qed.
Lemma freq_fidx n i : (0 < n)%Z -> (0 <= i < n)%Z ->
  np_ifftshift n (linspace (- IZR (truncR (IZR n / 2))) (IZR (ceilR (IZR n / 2)) - 1) n) i = IZR (fidx n i).
Proof.
  intros Hn Hi. unfold np_ifftshift. rewrite <- ifftshift_fidx by auto. unfold linspace.
  rewrite truncR_half, ceilR_half by lia. destruct (Z.eqb_spec n 1) as [->|N].
  - replace i with 0%Z by lia. change ((0 + 1 / 2) mod 1)%Z with 0%Z. ring.
  - assert (E : IZR ((n + 1) / 2) = IZR n - IZR (n / 2)) by (rewrite <- minus_IZR; f_equal; assert (H := half_up n); lia).
    rewrite E, minus_IZR. field. rewrite <- minus_IZR. apply IZR_neq0. lia.
Qed.

(** *** the whole call *)
Definition maskR (m n : Z) (maxoff : option Z) (h : Z -> Z -> R) : Z -> Z -> R :=
  match maxoff with
  | None => h
  | Some k => fun i j => if in_slice m k (- k) i || in_slice n k (- k) j then 0 else h i j
  end.
Lemma Cmod_limit m n mo cc i j : Cmod (limit_cc m n mo cc i j) = maskR m n mo (fun i j => Cmod (cc i j)) i j.
Proof. destruct mo as [k|]; [|reflexivity]. unfold limit_cc, maskR. destruct (_ || _)%bool; [apply Cmod_0|reflexivity]. Qed.
Lemma maskR_ext m n mo h h' : (0 < m)%Z -> (0 < n)%Z -> (forall i j, (0 <= i < m)%Z -> (0 <= j < n)%Z -> h i j = h' i j) ->
  forall i j, (0 <= i < m)%Z -> (0 <= j < n)%Z -> maskR m n mo h i j = maskR m n mo h' i j.
Proof. intros Hm Hn H i j Hi Hj. destruct mo as [k|]; cbn [maskR]; [|auto]. destruct (_ || _)%bool; auto. Qed.
Lemma maskR_scal m n mo c h i j : maskR m n mo (fun i j => c * h i j) i j = c * maskR m n mo h i j.
Proof. destruct mo as [k|]; cbn [maskR]; [|auto]. destruct (_ || _)%bool; [ring|auto]. Qed.

Lemma argmax2_ext' ny nx f g : (0 < ny)%Z -> (0 < nx)%Z -> (forall i j, (0 <= i < ny)%Z -> (0 <= j < nx)%Z -> f i j = g i j) ->
  argmax2 ny nx f = argmax2 ny nx g.
Proof. intros Hy Hx H. apply argmin2_ext; auto. intros. rewrite H; auto. Qed.
Lemma argmax2_scal ny nx c f : (0 < ny)%Z -> (0 < nx)%Z -> 0 < c -> argmax2 ny nx (fun i j => c * f i j) = argmax2 ny nx f.
Proof.
  intros Hy Hx Hc. apply argmin2_mono; auto. intros i j k l Hi Hj Hk Hl. cbv beta. split; intros H.
  - assert (A : c * f k l < c * f i j) by lra. assert (B := Rmult_lt_reg_l c _ _ Hc A). lra.
  - assert (A : c * f k l < c * f i j) by (apply Rmult_lt_compat_l; auto; lra). lra.
Qed.

(** shifts found from the magnitude G of the cross-correlation as a function of a real (row, col) position *)
Definition fine_size (u : R) : Z := ceilR (u * (3 / 2)).
Definition coarse (ny nx : Z) (G : R -> R -> R) (mo : option Z) : Z * Z :=
  let '(r, c) := argmax2 (ny * 2) (nx * 2) (maskR (ny * 2) (nx * 2) mo (fun i j => G (IZR i / 2) (IZR j / 2))) in
  (unwrap (ny * 2) r, unwrap (nx * 2) c).
Definition refine (G : R -> R -> R) (u : R) (p : Z * Z) : R * R :=
  let R0 := roundR (IZR (fst p) / 2 * u) in let C0 := roundR (IZR (snd p) / 2 * u) in
  let L := fine_size u in let d := (L / 2)%Z in
  let '(i, j) := argmax2 L L (fun i j => G (IZR (R0 + i - d) / u) (IZR (C0 + j - d) / u)) in
  (IZR (R0 + i - d) / u, IZR (C0 + j - d) / u).
Definition regtail (ny nx : Z) (G : R -> R -> R) (u : R) (mo : option Z) : R * R :=
  if Req_EM_T u 1 then
    let '(r, c) := argmax2 ny nx (maskR ny nx mo (fun i j => G (IZR i) (IZR j))) in (IZR (unwrap ny r), IZR (unwrap nx c))
  else
    let p := coarse ny nx G mo in
    let '(r, c) := if Rlt_dec 2 u then refine G u p else (IZR (fst p) / 2, IZR (snd p) / 2) in
    ((if (ny =? 1)%Z then 0 else r), (if (nx =? 1)%Z then 0 else c)).

Definition mag (ny nx : Z) (f g : Z -> Z -> R) (r c : R) : R := Cmod (rcc ny nx f g (- r) (- c)).

Lemma fine_size_pos u : 2 < u -> (3 < fine_size u)%Z.
Proof. intros H. unfold fine_size. assert (E := ceilR_spec (u * (3 / 2))). apply lt_IZR. lra. Qed.

Lemma get_ft1 hf nt np (a : arr num) ny nx zm k : shape a = [ny; nx] -> (0 < ny)%Z -> (0 < nx)%Z ->
  get (fst (get_ffts hf nt np) (Arr [ny; nx] (fun i => RtoC (nan0 (get (zero_mean zm a) i))))) k =
  dft [ny; nx] (fun y => RtoC (img2 (prep zm a ny nx) y)) k.
Proof.
  intros Hs Hy Hx. rewrite (proj2 (get_ffts_fwd hf nt np _)). apply dft_ext. intros i Hi. apply inb2 in Hi.
  destruct Hi as [y [x [-> [H1 H2]]]]. cbn [get shape img2]. rewrite (zero_mean_prep zm a ny nx) by auto. reflexivity.
Qed.

Lemma coarse_eq hf ny nx f g mo : (0 < ny)%Z -> (0 < nx)%Z ->
  let F1 := dft [ny; nx] (fun y => RtoC (img2 f y)) in let F2 := dft [ny; nx] (fun y => RtoC (img2 g y)) in
  forall b1 b2 : arr C, (forall k, get b1 k = F1 k) -> (forall k, get b2 k = F2 k) ->
  (let '(r, c) := peak (ny * 2) (nx * 2) (limit_cc (ny * 2) (nx * 2) mo (g2 (snd (get_ffts hf 1 false) (mk2 (ny * 2) (nx * 2)
       (ifftshift2 (ny * 2) (nx * 2) (embed2 ny nx (fun i j => Cmult (fftshift2 ny nx (g2 b1) i j) (Cconj (fftshift2 ny nx (g2 b2) i j))))))))) in
   (unwrap (ny * 2) r, unwrap (nx * 2) c)) = coarse ny nx (mag ny nx f g) mo.
Proof.
  intros Hy Hx F1 F2 b1 b2 H1 H2. unfold coarse, peak.
  rewrite (argmax2_ext' _ _ _ (fun i j => / 4 * maskR (ny * 2) (nx * 2) mo (fun i j => mag ny nx f g (IZR i / 2) (IZR j / 2)) i j)) by
  (try lia; intros i j Hi Hj; rewrite Cmod_limit, <- maskR_scal; apply maskR_ext; auto; try lia; clear i j Hi Hj; intros i j Hi Hj;
   unfold g2; rewrite (proj2 (get_ffts_inv hf 1 false _)); cbn [shape mk2];
   rewrite (idft_ext _ _ (get (mk2 (ny * 2) (nx * 2) (ifftshift2 (ny * 2) (nx * 2) (embed2 ny nx (fftshift2 ny nx (fun i j => Cmult (F1 [i; j]) (Cconj (F2 [i; j]))))))))) by
     (intros k Hk; apply inb2 in Hk; destruct Hk as [y [x [-> [Hk1 Hk2]]]]; cbn [get mk2]; unfold ifftshift2, np_ifftshift, embed2, fftshift2, np_fftshift;
      destruct (_ && _)%bool; [rewrite H1, H2; reflexivity|reflexivity]);
   unfold F1, F2; rewrite rcc_grid2, Cmod_mult, Cmod_R, Rabs_right by (auto; lra); reflexivity).
  rewrite argmax2_scal by (try lia; lra). reflexivity.
Qed.

Lemma fine_eq ny nx f g u (p : Z * Z) (K : R) (inp : arr C) : (0 < ny)%Z -> (0 < nx)%Z -> 2 < u -> 0 < K ->
  shape inp = [ny; nx] ->
  (forall k, inb [ny; nx] k -> get inp k = Cmult (dft [ny; nx] (fun y => RtoC (img2 g y)) k) (Cconj (dft [ny; nx] (fun y => RtoC (img2 f y)) k))) ->
  let row0 := IZR (roundR (IZR (fst p) / 2 * u)) / u in let col0 := IZR (roundR (IZR (snd p) / 2 * u)) / u in
  let size := IZR (ceilR (u * (3 / 2))) in let ds := IZR (truncR (size / 2)) in
  exists ups, dftups inp (Some size) (Some size) u (ds - row0 * u) (ds - col0 * u) = Ok ups /\
    shape ups = [fine_size u; fine_size u] /\
    exists z, (let '(rl, cl) := peak (fine_size u) (fine_size u) (fun i j => Cdiv (Cconj (g2 ups i j)) (RtoC K)) in
     (row0 + (IZR rl - ds) / u, col0 + (IZR cl - ds) / u, Cdiv (Cconj (g2 ups rl cl)) (RtoC K))) =
    (refine (mag ny nx f g) u p, z).
Proof.
  intros Hy Hx Hu HK Hs Hg row0 col0 size ds. assert (Hu0 : u <> 0) by lra.
  destruct (dftups_ok inp ny nx (Some size) (Some size) u (ds - row0 * u) (ds - col0 * u) Hs Hy Hx Hu0) as [ups [E1 [E2 E3]]].
  assert (Lp := fine_size_pos u Hu). assert (EL : dft_len (Some size) ny = fine_size u) by (unfold dft_len, size; fold (fine_size u); apply arange_len_IZR; lia).
  assert (EL' : dft_len (Some size) nx = fine_size u) by (exact EL). rewrite EL, EL' in E2.
  exists ups. split; [exact E1|]. split; [exact E2|].
  assert (Ed : ds = IZR (fine_size u / 2)) by (unfold ds, size; fold (fine_size u); rewrite truncR_half by lia; reflexivity).
  set (R0 := roundR (IZR (fst p) / 2 * u)) in *. set (C0 := roundR (IZR (snd p) / 2 * u)) in *.
  assert (Epos : forall Q i, (IZR i - (ds - IZR Q / u * u)) / u = IZR (Q + i - fine_size u / 2) / u).
  { intros Q i. rewrite Ed, minus_IZR, plus_IZR. field. auto. }
  assert (EG : forall i j, Cmod (Cdiv (Cconj (g2 ups i j)) (RtoC K)) =
     (IZR (ny * nx) / K) * mag ny nx f g (IZR (R0 + i - fine_size u / 2) / u) (IZR (C0 + j - fine_size u / 2) / u)).
  { intros i j. rewrite E3. unfold row0, col0. rewrite !Epos.
    assert (EU : forall a b p q, (forall k, inb [ny; nx] k -> a k = b k) -> ups_val ny nx a p q = ups_val ny nx b p q).
    { intros a b p' q' H. unfold ups_val. apply sumC_ext. intros l Hl. f_equal. apply sumC_ext. intros k Hk. rewrite H by (apply inb2_intro; auto). reflexivity. }
    rewrite (EU _ _ _ _ Hg), rcc_fine by auto. unfold mag.
    unfold Cdiv. rewrite !Cmod_mult, Cmod_inv, !Cmod_R by (intros A; apply RtoC_inj in A; lra).
    rewrite (Rabs_right K), (Rabs_right (IZR (ny * nx))) by (try lra; apply Rle_ge, IZR_le; nia). unfold Rdiv. ring. }
  unfold peak. rewrite (argmax2_ext' (fine_size u) (fine_size u) _ _ ltac:(lia) ltac:(lia) (fun i j _ _ => EG i j)).
  rewrite (argmax2_scal (fine_size u) (fine_size u) (IZR (ny * nx) / K) (fun i j => mag ny nx f g (IZR (R0 + i - fine_size u / 2) / u) (IZR (C0 + j - fine_size u / 2) / u))).
  2,3: lia. 2:{ unfold Rdiv. apply Rmult_lt_0_compat; [apply IZR_lt; nia|apply Rinv_0_lt_compat; auto]. }
  unfold refine. fold R0 C0. destruct (argmax2 _ _ _) as [i j]. eexists. f_equal. unfold row0, col0. f_equal.
  - rewrite <- (Epos R0 i). field. auto.
  - rewrite <- (Epos C0 j). field. auto.
Qed.

Definition err_part (return_error : bool) (u : R) : list regval := if return_error then [RgNum (1 / u); RgNum (1 / u)] else [].

Lemma register_eq hf im1 im2 u rr re zm mo nt np ny nx :
  shape im1 = [ny; nx] -> shape im2 = [ny; nx] -> (0 < ny)%Z -> (0 < nx)%Z -> u <> 0 -> (rr = true -> 0 < u) ->
  let f := prep zm im1 ny nx in let g := prep zm im2 ny nx in
  let '(r, c) := regtail ny nx (mag ny nx f g) u mo in
  exists tail, register_images hf im1 im2 u rr re zm mo nt np = Ok (RgNum (- c) :: RgNum (- r) :: err_part re u ++ tail) /\
    (rr = false -> tail = []) /\
    (rr = true -> exists a, tail = [RgImg a] /\ shape a = [ny; nx] /\
       forall i j, (0 <= i < ny)%Z -> (0 <= j < nx)%Z ->
         get a [i; j] = Cmod (cshift ny nx g r c ((i + ny / 2) mod ny) ((j + nx / 2) mod nx))).
Proof.
  intros H1 H2 Hy Hx Hu Hrr f g. unfold register_images. rewrite H1, H2.
  destruct (list_eq_dec Z.eq_dec [ny; nx] [ny; nx]) as [_|N]; [|congruence]. cbn [negb].
  assert (HF1 := get_ft1 hf nt np im1 ny nx zm). assert (HF2 := get_ft1 hf nt np im2 ny nx zm).
  assert (HI := get_ffts_inv hf nt np).
  assert (SF := fun a => proj1 (get_ffts_fwd hf nt np a)).
  destruct (get_ffts hf nt np) as [fw iv]. cbn [fst snd] in *.
  rewrite check_fft_ok by auto using pos2. cbn [bind].
  set (B1 := fw (Arr [ny; nx] (fun i => RtoC (nan0 (get (zero_mean zm im1) i))))) in *.
  set (B2 := fw (Arr [ny; nx] (fun i => RtoC (nan0 (get (zero_mean zm im2) i))))) in *.
  assert (G1 : forall k, get B1 k = dft [ny; nx] (fun y => RtoC (img2 f y)) k) by (intros; apply HF1; auto).
  assert (G2 : forall k, get B2 k = dft [ny; nx] (fun y => RtoC (img2 g y)) k) by (intros; apply HF2; auto).
  assert (S1 : shape B1 = [ny; nx]) by apply SF. clearbody B1 B2. clear HF1 HF2 SF.
  unfold dftregistration. assert (C := coarse_eq hf ny nx f g mo Hy Hx B1 B2 G1 G2).
  assert (HJ := get_ffts_inv hf 1 false). destruct (get_ffts hf 1 false) as [fw' iv']. cbn [fst snd] in *.
  destruct (Req_EM_T u 0) as [|_]; [contradiction|]. rewrite S1.
  set (found := if Req_EM_T u 1 then _ else _).
  assert (EF : exists z, found = Ok (regtail ny nx (mag ny nx f g) u mo, z)).
  { unfold found, regtail. destruct (Req_EM_T u 1) as [_|N1].
    - unfold peak. rewrite (argmax2_ext' ny nx _ (maskR ny nx mo (fun i j => mag ny nx f g (IZR i) (IZR j)))); auto.
      + destruct (argmax2 _ _ _) as [r c]. eexists. reflexivity.
      + intros i j Hi Hj. rewrite Cmod_limit. apply maskR_ext; auto. clear i j Hi Hj. intros i j Hi Hj. unfold g2.
        rewrite (proj2 (HJ _)). cbn [shape mk2]. unfold mag. rewrite <- rcc_grid1 by auto. f_equal. apply idft_ext.
        intros k Hk. apply inb2 in Hk. destruct Hk as [y [x [-> _]]]. cbn [get mk2]. rewrite G1, G2. reflexivity.
    - destruct (peak (ny * 2) (nx * 2) _) as [r c]. rewrite <- C. cbn [fst snd].
      assert (M : truncR (IZR (ny * 2) / 2) = ny) by (rewrite truncR_half, Z.div_mul by lia; reflexivity).
      assert (N : truncR (IZR (nx * 2) / 2) = nx) by (rewrite truncR_half, Z.div_mul by lia; reflexivity). rewrite M, N.
      destruct (Rlt_dec 2 u) as [L|L].
      + destruct (fine_eq ny nx f g u (unwrap (ny * 2) r, unwrap (nx * 2) c) (IZR ny * IZR nx * u ^ 2)
          (mk2 ny nx (fun i j => Cmult (g2 B2 i j) (Cconj (g2 B1 i j)))) Hy Hx L) as [ups [E1 [E2 [z E3]]]].
        { apply Rmult_lt_0_compat; [apply Rmult_lt_0_compat; apply IZR_lt; lia|apply pow_lt; lra]. }
        { reflexivity. }
        { intros k Hk. apply inb2 in Hk. destruct Hk as [y [x [-> _]]]. cbn [get mk2]. unfold g2. rewrite G1, G2. reflexivity. }
        cbn [fst snd] in E1, E3. rewrite E1. cbn [bind]. rewrite E2.
        destruct (peak (fine_size u) (fine_size u) _) as [rl cl]. rewrite E3. cbn [bind].
        destruct (refine (mag ny nx f g) u _) as [a b]. eexists. reflexivity.
      + cbn [bind]. eexists. reflexivity. }
  destruct EF as [z EF]. rewrite EF. clear EF found C. cbn [bind]. destruct (regtail ny nx (mag ny nx f g) u mo) as [r c].
  destruct rr.
  - destruct (Rlt_dec 0 u) as [_|N]; [|exfalso; apply N; auto]. cbn [bind app].
    match goal with |- context [RgFt ?a] => set (ft := a) end.
    exists [RgImg (mk2 ny nx (ifftshift2 ny nx (fun i j => Cmod (g2 (iv ft) i j))))].
    split; [destruct re; reflexivity|]. split; [discriminate|]. intros _. eexists. split; [reflexivity|]. split; [reflexivity|].
    intros i j Hi Hj. cbn [get mk2]. unfold ifftshift2, np_ifftshift, g2. rewrite (proj2 (HI _)). cbn [shape mk2 ft].
    set (i' := ((i + ny / 2) mod ny)%Z). set (j' := ((j + nx / 2) mod nx)%Z).
    assert (Hi' : (0 <= i' < ny)%Z) by (apply Z.mod_pos_bound; lia). assert (Hj' : (0 <= j' < nx)%Z) by (apply Z.mod_pos_bound; lia).
    set (ph := arctan2 (Im z) (Re z)) in *.
    assert (HY : IZR ny <> 0) by (apply IZR_neq0; lia). assert (HX : IZR nx <> 0) by (apply IZR_neq0; lia).
    transitivity (Cmod (Cmult (cis ph) (idft [ny; nx] (fun k => Cmult (dft [ny; nx] (fun y => RtoC (img2 g y)) k) (cis (- (2 * PI * fdot [ny; nx] k [r; c])))) [i'; j']))).
    + f_equal. unfold idft. rewrite Cmult_assoc, (Cmult_comm (cis ph)), <- Cmult_assoc. f_equal. rewrite <- sumNC_scal. apply sumNC_ext.
      intros k Hk. apply inb2 in Hk. destruct Hk as [a [b [-> [Ha Hb]]]]. cbn [get mk2 ft]. unfold g2. rewrite G2, !freq_fidx by auto.
      cbn [fdot]. unfold fftfreq.
      replace (2 * PI * (- r * IZR (fidx ny a) / IZR ny - c * IZR (fidx nx b) / IZR nx))
        with (- (2 * PI * (IZR (fidx ny a) / IZR ny * r + (IZR (fidx nx b) / IZR nx * c + 0)))) by (field; auto). ring.
    + rewrite Cmod_mult, Cmod_cis, Rmult_1_l. f_equal. rewrite idft_dft_kernel by (auto using pos2).
      rewrite <- cshift_shifted by auto. unfold shifted. rewrite Ropp_0, cis_0, Cmult_1_l. reflexivity.
  - cbn [bind app]. exists []. split; [|split; [reflexivity|discriminate]]. destruct re; reflexivity.
Qed.
