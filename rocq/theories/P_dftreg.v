(** Property C104: the registered transform dftregistration returns is the one closest to the first transform *)
From Coq Require Import ZArith Lia List Reals Lra Bool.
From Coquelicot Require Import Complex.
From Verif Require Import Base NDim DFT Kernel Num Py M_fast_ffts M_shift M_upsample Arg M_chi2 M_xcorr M_register
  Spec L_shift L_scale L_upsample Sum2 Spec2 Spec3 Spec4 L_chi2 L_chi2shift L_fshift L_xcorr P_chi2errors P_xcorr P_xcorr2 P_xcorr3
  L_register L_register2 L_register3 P_register P_register2.
Import ListNotations.
Open Scope R_scope.

(** *** specification *)
(** inner product and squared distance of two transforms of an ny x nx image *)
Definition tprod (ny nx : Z) (F G : list Z -> C) : C := sumNC [ny; nx] (fun k => Cmult (F k) (Cconj (G k))).
Definition tdist (ny nx : Z) (F G : list Z -> C) : R := sumNR [ny; nx] (fun k => Cmod (Cminus (F k) (G k)) ^ 2).
(** the transform F after moving its image by (r, c) pixels and multiplying it by w *)
Definition moved_by (ny nx : Z) (F : list Z -> C) (r c : R) (w : C) (k : list Z) : C :=
  Cmult w (Cmult (F k) (cis (- (2 * PI * fdot [ny; nx] k [r; c])))).

(** *** arctan2 gives the phase *)
Lemma Cmod_pos_sqrt x y : 0 < x -> sqrt (x ^ 2 + y ^ 2) = x * sqrt (1 + (y / x)²).
Proof.
  intros Hx. replace (x ^ 2 + y ^ 2) with (x ^ 2 * (1 + (y / x)²)) by (unfold Rsqr; field; lra).
  rewrite sqrt_mult. 2: nra. 2:{ assert (H := Rle_0_sqr (y / x)). lra. }
  rewrite sqrt_pow2 by lra. reflexivity.
Qed.
Lemma atan_polar x y : 0 < x -> x = cos (atan (y / x)) * sqrt (x ^ 2 + y ^ 2) /\ y = sin (atan (y / x)) * sqrt (x ^ 2 + y ^ 2).
Proof.
  intros Hx. rewrite cos_atan, sin_atan, Cmod_pos_sqrt by auto.
  assert (P : 0 < sqrt (1 + (y / x)²)) by (apply sqrt_lt_R0; assert (H := Rle_0_sqr (y / x)); lra).
  split; field; lra.
Qed.
Lemma arctan2_phase (z : C) : Cmult (cis (arctan2 (Im z) (Re z))) (RtoC (Cmod z)) = z.
Proof.
  destruct z as [x y]. unfold arctan2, cis, Cmod, Re, Im, Cmult, RtoC. cbn [fst snd].
  assert (M : forall a b, sqrt (a ^ 2 + b ^ 2) = sqrt ((- a) ^ 2 + (- b) ^ 2)) by (intros; f_equal; ring).
  destruct (Rlt_dec 0 x) as [Hx|Hx].
  { destruct (atan_polar x y Hx) as [A B]. rewrite Rmult_0_r, Rmult_0_r, Rminus_0_r, Rplus_0_l. f_equal; lra. }
  destruct (Rlt_dec x 0) as [Hx'|Hx'].
  { assert (E : y / x = (- y) / (- x)) by (field; lra).
    assert (Hn : 0 < - x) by lra. destruct (atan_polar (- x) (- y) Hn) as [A B]. rewrite E. rewrite <- (M x y) in A, B.
    destruct (Rle_dec 0 y).
    - rewrite neg_cos, neg_sin, !Rmult_0_r, Rminus_0_r, Rplus_0_l. f_equal; lra.
    - replace (cos (atan (- y / - x) - PI)) with (- cos (atan (- y / - x))) by (rewrite cos_minus, cos_PI, sin_PI; ring).
      replace (sin (atan (- y / - x) - PI)) with (- sin (atan (- y / - x))) by (rewrite sin_minus, cos_PI, sin_PI; ring).
      rewrite !Rmult_0_r, Rminus_0_r, Rplus_0_l. f_equal; lra. }
  assert (x = 0) by lra. subst x. replace (0 ^ 2 + y ^ 2) with (y ^ 2) by ring.
  destruct (Rlt_dec 0 y) as [H|H].
  { rewrite cos_PI2, sin_PI2, sqrt_pow2 by lra. f_equal; ring. }
  destruct (Rlt_dec y 0) as [H'|H'].
  { rewrite cos_neg, sin_neg, cos_PI2, sin_PI2. replace (y ^ 2) with ((- y) ^ 2) by ring. rewrite sqrt_pow2 by lra. f_equal; ring. }
  assert (y = 0) by lra. subst y. replace (0 ^ 2) with 0 by ring. rewrite sqrt_0, cos_0, sin_0. f_equal; ring.
Qed.

(** *** the cross-correlation as a function of a real position *)
Definition xc (ny nx : Z) (F G : list Z -> C) (p q : R) : C :=
  sumNC [ny; nx] (fun k => Cmult (Cmult (F k) (Cconj (G k))) (cis (2 * PI * fdot [ny; nx] k [p; q]))).
Lemma tprod_moved ny nx F G p q w : tprod ny nx F (moved_by ny nx G p q w) = Cmult (Cconj w) (xc ny nx F G p q).
Proof.
  unfold tprod, xc, moved_by. rewrite <- sumNC_scal. apply sumNC_ext. intros k Hk.
  rewrite !Cconj_mult, cis_opp_conj, Cconj_inv. ring.
Qed.
Lemma xc_period ny nx F G p q p' q' : (0 < ny)%Z -> (0 < nx)%Z -> whole_period ny (p - p') -> whole_period nx (q - q') ->
  xc ny nx F G p q = xc ny nx F G p' q'.
Proof.
  intros Hy Hx A B. unfold xc. apply sumNC_ext. intros k Hk. apply inb2 in Hk. destruct Hk as [a [b [-> [Ha Hb]]]]. f_equal.
  assert (W : forall n i t t', (0 < n)%Z -> (0 <= i < n)%Z -> whole_period n (t - t') -> exists z : Z, fftfreq n i * t - fftfreq n i * t' = IZR z).
  { intros n i t t' Hn Hi [->|[z Ez]].
    - exists 0%Z. replace i with 0%Z by lia. unfold fftfreq. rewrite fidx_0 by lia. unfold Rdiv. ring.
    - exists (fidx n i * z)%Z. unfold fftfreq. rewrite mult_IZR, <- Rmult_minus_distr_l, Ez. field. apply IZR_neq0. lia. }
  destruct (W ny a p p' Hy Ha A) as [z Ez]. destruct (W nx b q q' Hx Hb B) as [z' Ez'].
  apply (cis_congr _ _ (z + z')%Z). cbn [fdot]. rewrite plus_IZR, <- Ez, <- Ez'. ring.
Qed.
Lemma xc_grid1 ny nx F G r c : (0 < ny)%Z -> (0 < nx)%Z ->
  idft [ny; nx] (fun k => Cmult (F k) (Cconj (G k))) [r; c] = Cmult (RtoC (/ IZR (prodZ [ny; nx]))) (xc ny nx F G (IZR r) (IZR c)).
Proof.
  intros Hy Hx. unfold idft, xc. f_equal. apply sumNC_ext. intros k Hk. f_equal.
  rewrite <- fdot_cis by auto using pos2. reflexivity.
Qed.
Lemma xc_grid2 ny nx F G r c : (0 < ny)%Z -> (0 < nx)%Z ->
  let P := fun i j => Cmult (F [i; j]) (Cconj (G [i; j])) in
  idft [ny * 2; nx * 2]%Z (get (mk2 (ny * 2) (nx * 2) (ifftshift2 (ny * 2) (nx * 2) (embed2 ny nx (fftshift2 ny nx P))))) [r; c] =
  Cmult (RtoC (/ 4 * / IZR (prodZ [ny; nx]))) (xc ny nx F G (IZR r / 2) (IZR c / 2)).
Proof.
  intros Hy Hx P. unfold idft, xc.
  assert (HY : IZR ny <> 0) by (apply IZR_neq0; lia). assert (HX : IZR nx <> 0) by (apply IZR_neq0; lia).
  f_equal.
  { f_equal. cbn [prodZ]. rewrite !mult_IZR. field. auto. }
  cbn [sumNC sumNG get mk2].
  transitivity (sumC (nx * 2) (fun l => Cmult (sumC (ny * 2) (fun k => Cmult (emb1 ny (fun p => emb1 nx (P p) ((l + nx * 2 / 2) mod (nx * 2))) ((k + ny * 2 / 2) mod (ny * 2)))
       (cis (2 * PI * (IZR k * IZR r / IZR (ny * 2)))))) (cis (2 * PI * (IZR l * IZR c / IZR (nx * 2)))))).
  { rewrite sumC_swap. apply sumC_ext. intros l Hl. rewrite <- sumC_scal_r. apply sumC_ext. intros k Hk.
    unfold ifftshift2, np_ifftshift. rewrite embed2_eq by auto. rewrite <- Cmult_assoc. f_equal.
    rewrite <- cis_plus. f_equal. cbn [phZ]. ring. }
  rewrite (sumC_ext (nx * 2) _ (fun l => Cmult (sumC ny (fun k => Cmult (emb1 nx (P k) ((l + nx * 2 / 2) mod (nx * 2))) (cis (2 * PI * (fftfreq ny k * (IZR r / 2))))))
      (cis (2 * PI * (IZR l * IZR c / IZR (nx * 2)))))).
  2:{ intros l Hl. rewrite emb1_sum by auto. reflexivity. }
  rewrite (sumC_ext (nx * 2) _ (fun l => sumC ny (fun k => Cmult (cis (2 * PI * (fftfreq ny k * (IZR r / 2)))) (Cmult (emb1 nx (P k) ((l + nx * 2 / 2) mod (nx * 2))) (cis (2 * PI * (IZR l * IZR c / IZR (nx * 2)))))))).
  2:{ intros l Hl. rewrite <- sumC_scal_r. apply sumC_ext. intros; ring. }
  rewrite sumC_swap. apply sumC_ext. intros k Hk. rewrite sumC_scal, emb1_sum by auto. rewrite <- sumC_scal. apply sumC_ext. intros l Hl.
  unfold P. cbn [fdot]. rewrite Rplus_0_r, Rmult_plus_distr_l, cis_plus. ring.
Qed.
Lemma xc_fine ny nx F G p q : (0 < ny)%Z -> (0 < nx)%Z ->
  Cconj (ups_val ny nx (fun k => Cmult (G k) (Cconj (F k))) p q) = xc ny nx F G p q.
Proof.
  intros Hy Hx. unfold ups_val, xc. rewrite Cconj_sumC. cbn [sumNC sumNG]. rewrite (sumC_swap ny nx). apply sumC_ext. intros l Hl.
  rewrite Cconj_mult, Cconj_sumC, <- sumC_scal_r. apply sumC_ext. intros k Hk.
  rewrite !Cconj_mult, Cconj_inv. cbn [fdot]. rewrite Rplus_0_r, Rmult_plus_distr_l, cis_plus.
  replace (- (2 * PI) * (fftfreq ny k * p)) with (- (2 * PI * (fftfreq ny k * p))) by ring.
  replace (- (2 * PI) * (fftfreq nx l * q)) with (- (2 * PI * (fftfreq nx l * q))) by ring.
  rewrite !cis_opp_conj, !Cconj_inv. ring.
Qed.
Lemma unwrap_period n k : (0 < n)%Z -> exists z : Z, IZR (unwrap n k) - IZR k = IZR z * IZR n.
Proof.
  intros Hn. rewrite unwrap_val by lia. destruct (_ <? _)%Z.
  - exists (-1)%Z. rewrite minus_IZR. lra.
  - exists 0%Z. lra.
Qed.
(** the peak of a correlation proportional to H, with or without maxoff *)
Lemma peak_limited m n mo (cc H : Z -> Z -> C) K : (0 < m)%Z -> (0 < n)%Z -> mo_ok mo -> 0 < K ->
  (forall i j, (0 <= i < m)%Z -> (0 <= j < n)%Z -> cc i j = Cmult (RtoC K) (H i j)) ->
  let '(r, c) := peak m n (limit_cc m n mo cc) in
  (0 <= r < m)%Z /\ (0 <= c < n)%Z /\ limit_cc m n mo cc r c = Cmult (RtoC K) (H r c) /\
  (mo = None -> forall i j, (0 <= i < m)%Z -> (0 <= j < n)%Z -> Cmod (H i j) <= Cmod (H r c)).
Proof.
  intros Hm Hn Hmo HK E. unfold peak.
  rewrite (argmax2_ext' m n _ (maskR m n mo (fun i j => Cmod (cc i j)))) by (auto; intros; apply Cmod_limit).
  assert (S := masked_argmax m n mo (fun i j => Cmod (cc i j)) Hm Hn Hmo (fun i j => Cmod_ge_0 _)). cbv beta in S.
  destruct (argmax2 _ _ _) as [r c]. destruct S as [Hr [Hc [A [B S]]]]. split; [exact Hr|]. split; [exact Hc|]. split.
  - rewrite <- E by auto. destruct mo as [M|]; [|reflexivity]. cbn [allowed mo_ok limit_cc] in *.
    assert (D1 : in_slice m M (- M) r = false) by (apply not_true_iff_false; rewrite in_slice_spec by auto; lia).
    assert (D2 : in_slice n M (- M) c = false) by (apply not_true_iff_false; rewrite in_slice_spec by auto; lia).
    rewrite D1, D2. reflexivity.
  - intros -> i j Hi Hj. specialize (S i j Hi Hj I I). rewrite !E, !Cmod_mult, !Cmod_R, Rabs_right in S by (auto; lra).
    apply Rmult_le_reg_l in S; auto.
Qed.

(** *** the whole call *)
Lemma dftreg_ok hf (b1 b2 : arr C) u re mo nt np ny nx :
  shape b1 = [ny; nx] -> (0 < ny)%Z -> (0 < nx)%Z -> 0 < u -> mo_ok mo ->
  exists r c z K, 0 < K /\ z = Cmult (RtoC K) (xc ny nx (get b1) (get b2) r c) /\
    dftregistration hf b1 b2 u false re mo nt np = Ok (nums [r; c] ++ err_out re u) /\
    (exists G, dftregistration hf b1 b2 u true re mo nt np = Ok (nums [r; c] ++ err_out re u ++ [RgFt G]) /\ shape G = [ny; nx] /\
       forall k, inb [ny; nx] k -> get G k = moved_by ny nx (get b2) r c (cis (arctan2 (Im z) (Re z))) k) /\
    (u = 1 -> mo = None -> forall s t : Z, Cmod (xc ny nx (get b1) (get b2) (IZR s) (IZR t)) <= Cmod (xc ny nx (get b1) (get b2) r c)) /\
    (u <> 1 -> u <= 2 -> mo = None -> forall s t : Z, Cmod (xc ny nx (get b1) (get b2) (IZR s / 2) (IZR t / 2)) <= Cmod (xc ny nx (get b1) (get b2) r c)).
Proof.
  intros S1 Hy Hx Hu Hmo. set (F1 := get b1) in *. set (F2 := get b2) in *.
  assert (NP : 0 < / IZR (prodZ [ny; nx])) by (apply Rinv_0_lt_compat, IZR_lt; cbn [prodZ]; nia).
  assert (HY : IZR ny <> 0) by (apply IZR_neq0; lia). assert (HX : IZR nx <> 0) by (apply IZR_neq0; lia).
  unfold dftregistration. assert (HJ := get_ffts_inv hf nt np). destruct (get_ffts hf nt np) as [fw iv]. cbn [snd] in HJ.
  destruct (Req_EM_T u 0) as [|_]; [lra|]. rewrite S1.
  set (found := if Req_EM_T u 1 then _ else _).
  assert (EF : exists r c z K, found = Ok (r, c, z) /\ 0 < K /\ z = Cmult (RtoC K) (xc ny nx F1 F2 r c) /\
    (u = 1 -> mo = None -> forall s t : Z, Cmod (xc ny nx F1 F2 (IZR s) (IZR t)) <= Cmod (xc ny nx F1 F2 r c)) /\
    (u <> 1 -> u <= 2 -> mo = None -> forall s t : Z, Cmod (xc ny nx F1 F2 (IZR s / 2) (IZR t / 2)) <= Cmod (xc ny nx F1 F2 r c))).
  { unfold found. clear found. destruct (Req_EM_T u 1) as [U1|U1].
    - set (cc := g2 (iv _)).
      assert (Ecc : forall i j, (0 <= i < ny)%Z -> (0 <= j < nx)%Z -> cc i j = Cmult (RtoC (/ IZR (prodZ [ny; nx]))) (xc ny nx F1 F2 (IZR i) (IZR j))).
      { intros i j Hi Hj. unfold cc, g2. rewrite (proj2 (HJ _)). cbn [shape mk2]. rewrite <- xc_grid1 by auto. apply idft_ext.
        intros k Hk. apply inb2 in Hk. destruct Hk as [y [x [-> _]]]. reflexivity. }
      assert (P := peak_limited ny nx mo cc (fun i j => xc ny nx F1 F2 (IZR i) (IZR j)) _ Hy Hx Hmo NP Ecc).
      destruct (peak _ _ _) as [r c]. destruct P as [Hr [Hc [P1 P2]]].
      assert (PU : forall i j, xc ny nx F1 F2 (IZR (unwrap ny i)) (IZR (unwrap nx j)) = xc ny nx F1 F2 (IZR i) (IZR j)).
      { intros i j. apply xc_period; auto; right; apply unwrap_period; auto. }
      do 4 eexists. split; [reflexivity|]. split; [exact NP|]. split; [rewrite PU; exact P1|]. split; [|intros; contradiction].
      intros _ Hn s t. rewrite PU. specialize (P2 Hn (s mod ny)%Z (t mod nx)%Z ltac:(apply Z.mod_pos_bound; lia) ltac:(apply Z.mod_pos_bound; lia)).
      rewrite (xc_period ny nx F1 F2 (IZR s) (IZR t) (IZR (s mod ny)) (IZR (t mod nx))); auto.
      + right. exists (s / ny)%Z. rewrite <- minus_IZR, <- mult_IZR. f_equal. assert (A := Z_div_mod_eq_full s ny). lia.
      + right. exists (t / nx)%Z. rewrite <- minus_IZR, <- mult_IZR. f_equal. assert (A := Z_div_mod_eq_full t nx). lia.
    - cbv zeta. set (cc := g2 (iv _)). assert (NP4 : 0 < / 4 * / IZR (prodZ [ny; nx])) by (apply Rmult_lt_0_compat; lra).
      assert (Ecc : forall i j, (0 <= i < ny * 2)%Z -> (0 <= j < nx * 2)%Z ->
         cc i j = Cmult (RtoC (/ 4 * / IZR (prodZ [ny; nx]))) (xc ny nx F1 F2 (IZR i / 2) (IZR j / 2))).
      { intros i j Hi Hj. unfold cc, g2. rewrite (proj2 (HJ _)). cbn [shape mk2]. rewrite <- xc_grid2 by auto. reflexivity. }
      assert (P := peak_limited (ny * 2) (nx * 2) mo cc (fun i j => xc ny nx F1 F2 (IZR i / 2) (IZR j / 2)) _ ltac:(lia) ltac:(lia) Hmo NP4 Ecc).
      destruct (peak (ny * 2) (nx * 2) _) as [r c]. destruct P as [Hr [Hc [P1 P2]]].
      assert (M : truncR (IZR (ny * 2) / 2) = ny) by (rewrite truncR_half, Z.div_mul by lia; reflexivity).
      assert (N : truncR (IZR (nx * 2) / 2) = nx) by (rewrite truncR_half, Z.div_mul by lia; reflexivity). rewrite M, N.
      assert (Zr : forall p q, xc ny nx F1 F2 (if (ny =? 1)%Z then 0 else p) (if (nx =? 1)%Z then 0 else q) = xc ny nx F1 F2 p q).
      { intros p q. apply xc_period; auto.
        - destruct (Z.eqb_spec ny 1) as [E|]; [left; exact E|]. right. exists 0%Z. ring.
        - destruct (Z.eqb_spec nx 1) as [E|]; [left; exact E|]. right. exists 0%Z. ring. }
      assert (W : forall n k, (0 < n)%Z -> whole_period n (IZR (unwrap (n * 2) k) / 2 - IZR k / 2)).
      { intros n k Hn. right. destruct (unwrap_period (n * 2) k ltac:(lia)) as [z Ez]. exists z. rewrite mult_IZR in Ez. lra. }
      assert (PU : forall i j, xc ny nx F1 F2 (IZR (unwrap (ny * 2) i) / 2) (IZR (unwrap (nx * 2) j) / 2) = xc ny nx F1 F2 (IZR i / 2) (IZR j / 2)).
      { intros i j. apply xc_period; auto. }
      destruct (Rlt_dec 2 u) as [L|L].
      + set (row0 := IZR (roundR (IZR (unwrap (ny * 2) r) / 2 * u)) / u). set (col0 := IZR (roundR (IZR (unwrap (nx * 2) c) / 2 * u)) / u).
        set (size := IZR (ceilR (u * (3 / 2)))). set (ds := IZR (truncR (size / 2))).
        set (inp := mk2 ny nx (fun i j => Cmult (g2 b2 i j) (Cconj (g2 b1 i j)))).
        destruct (dftups_ok inp ny nx (Some size) (Some size) u (ds - row0 * u) (ds - col0 * u) eq_refl Hy Hx ltac:(lra)) as [ups [E1 [E2 E3]]].
        rewrite E1. cbn [bind]. rewrite E2. destruct (peak (dft_len (Some size) ny) _ _) as [rl cl]. cbn [bind].
        set (Q := IZR ny * IZR nx * u ^ 2).
        assert (HQ : 0 < / Q).
        { apply Rinv_0_lt_compat. apply Rmult_lt_0_compat; [apply Rmult_lt_0_compat; apply IZR_lt; lia|apply pow_lt; lra]. }
        do 4 eexists. split; [reflexivity|]. split; [exact HQ|]. split; [|split; [intros; contradiction|intros; lra]].
        rewrite Zr, E3. unfold Cdiv. rewrite <- RtoC_inv by (intros A; rewrite A, Rinv_0 in HQ; lra). rewrite Cmult_comm. f_equal.
        assert (EU : forall p q, ups_val ny nx (get inp) p q = ups_val ny nx (fun k => Cmult (F2 k) (Cconj (F1 k))) p q) by reflexivity.
        rewrite EU, xc_fine by auto. f_equal; field; lra.
      + cbn [bind]. do 4 eexists. split; [reflexivity|]. split; [exact NP4|]. rewrite Zr, PU. split; [exact P1|].
        split; [intros; contradiction|]. intros _ _ Hn s t.
        specialize (P2 Hn (s mod (ny * 2))%Z (t mod (nx * 2))%Z ltac:(apply Z.mod_pos_bound; lia) ltac:(apply Z.mod_pos_bound; lia)). cbv beta in P2.
        rewrite (xc_period ny nx F1 F2 (IZR s / 2) (IZR t / 2) (IZR (s mod (ny * 2)) / 2) (IZR (t mod (nx * 2)) / 2)); auto.
        * right. exists (s / (ny * 2))%Z. assert (A := Z_div_mod_eq_full s (ny * 2)). apply (f_equal IZR) in A. rewrite plus_IZR, !mult_IZR in A. lra.
        * right. exists (t / (nx * 2))%Z. assert (A := Z_div_mod_eq_full t (nx * 2)). apply (f_equal IZR) in A. rewrite plus_IZR, !mult_IZR in A. lra. }
  destruct EF as [r [c [z [K [EF [HK [Ez [O1 O2]]]]]]]]. rewrite EF. clear EF found. cbn [bind].
  exists r, c, z, K. split; [exact HK|]. split; [exact Ez|]. split; [destruct re; reflexivity|]. split; [|split; [exact O1|exact O2]].
  destruct (Rlt_dec 0 u) as [_|N]; [|contradiction].
  eexists. split; [destruct re; reflexivity|]. split; [reflexivity|].
  intros k Hk. apply inb2 in Hk. destruct Hk as [a [b [-> [Ha Hb]]]]. cbn [get mk2]. unfold moved_by, g2. rewrite !freq_fidx by auto.
  cbn [fdot]. unfold fftfreq. fold F2.
  replace (2 * PI * (- r * IZR (fidx ny a) / IZR ny - c * IZR (fidx nx b) / IZR nx))
    with (- (2 * PI * (IZR (fidx ny a) / IZR ny * r + (IZR (fidx nx b) / IZR nx * c + 0)))) by (field; auto). ring.
Qed.

Lemma tdist_expand ny nx F G r c w : Cmod w = 1 ->
  tdist ny nx F (moved_by ny nx G r c w) =
  sumNR [ny; nx] (fun k => Cmod (F k) ^ 2) + sumNR [ny; nx] (fun k => Cmod (G k) ^ 2) - 2 * Re (tprod ny nx F (moved_by ny nx G r c w)).
Proof.
  intros Hw. unfold tdist, tprod. rewrite Re_sumNC.
  transitivity (sumNR [ny; nx] (fun k => (Cmod (F k) ^ 2 + Cmod (G k) ^ 2) + (-2) * Re (Cmult (F k) (Cconj (moved_by ny nx G r c w k))))).
  - apply sumNR_ext. intros k Hk.
    assert (E : Cmod (G k) = Cmod (moved_by ny nx G r c w k)) by (unfold moved_by; rewrite !Cmod_mult, Hw, Cmod_cis; ring).
    rewrite E. set (b := moved_by ny nx G r c w k). set (a := F k). clearbody a b. clear. rewrite !sqC.
    destruct a, b. unfold Cminus, Cplus, Copp, Cmult, Cconj, Re, Im. cbn [fst snd]. ring.
  - rewrite !sumNR_plus, sumNR_scal. ring.
Qed.
Lemma Re_le_mod (z : C) : Re z <= Cmod z.
Proof. destruct z as [x y]. unfold Cmod, Re. cbn [fst snd]. apply Rle_trans with (Rabs x); [apply Rle_abs|]. rewrite <- sqrt_Rsqr_abs. apply sqrt_le_1_alt. unfold Rsqr. nra. Qed.
Lemma tprod_best ny nx F G p q w : Cmod w = 1 -> Re (tprod ny nx F (moved_by ny nx G p q w)) <= Cmod (xc ny nx F G p q).
Proof.
  intros Hw. eapply Rle_trans; [apply Re_le_mod|]. rewrite tprod_moved, Cmod_mult.
  replace (Cmod (Cconj w)) with (Cmod w); [rewrite Hw; lra|]. destruct w; unfold Cmod, Cconj; cbn [fst snd]; f_equal; ring.
Qed.
Lemma in_phase ny nx F G r c z K : 0 < K -> z = Cmult (RtoC K) (xc ny nx F G r c) ->
  tprod ny nx F (moved_by ny nx G r c (cis (arctan2 (Im z) (Re z)))) = RtoC (Cmod (xc ny nx F G r c)).
Proof.
  intros HK Ez. rewrite tprod_moved. set (X := xc ny nx F G r c) in *. assert (A := arctan2_phase z). set (w := cis _) in *.
  assert (W : Cmult (Cconj w) w = RtoC 1) by (unfold w; rewrite <- cis_opp_conj, Cmult_comm, cis_mult_opp; reflexivity).
  assert (EX : X = Cmult w (RtoC (Cmod X))).
  { assert (EK : Cmod z = K * Cmod X) by (rewrite Ez, Cmod_mult, Cmod_R, Rabs_right by lra; reflexivity).
    rewrite EK, RtoC_mult, Ez in A. assert (K0 : RtoC K <> RtoC 0) by (intros H; apply RtoC_inj in H; lra).
    transitivity (Cmult (Cinv (RtoC K)) (Cmult (RtoC K) X)); [field; exact K0|]. rewrite <- A. field. exact K0. }
  rewrite EX at 1. rewrite Cmult_assoc, W, Cmult_1_l. reflexivity.
Qed.

(** *** theorems *)
(** the returned transform is the second one moved by the returned shift, multiplied by a phase that puts it in phase with
    the first one (their inner product is real and not negative): no other phase brings it closer *)
Theorem C104_in_phase :
  forall has_fftw (buf1ft buf2ft : arr C) usfac ret_err maxoff nthreads use_np ny nx,
  shape buf1ft = [ny; nx] -> shape buf2ft = [ny; nx] -> (0 < ny)%Z -> (0 < nx)%Z -> 0 < usfac -> mo_ok maxoff ->
  exists r c w G,
    dftregistration has_fftw buf1ft buf2ft usfac false ret_err maxoff nthreads use_np = Ok (nums [r; c] ++ err_out ret_err usfac) /\
    dftregistration has_fftw buf1ft buf2ft usfac true ret_err maxoff nthreads use_np = Ok (nums [r; c] ++ err_out ret_err usfac ++ [RgFt G]) /\
    shape G = [ny; nx] /\ Cmod w = 1 /\ (forall k, inb [ny; nx] k -> get G k = moved_by ny nx (get buf2ft) r c w k) /\
    Im (tprod ny nx (get buf1ft) (get G)) = 0 /\ 0 <= Re (tprod ny nx (get buf1ft) (get G)) /\
    forall w', Cmod w' = 1 -> tdist ny nx (get buf1ft) (get G) <= tdist ny nx (get buf1ft) (moved_by ny nx (get buf2ft) r c w').
Proof.
  intros hf b1 b2 u re mo nt np ny nx S1 _ Hy Hx Hu Hmo.
  destruct (dftreg_ok hf b1 b2 u re mo nt np ny nx S1 Hy Hx Hu Hmo) as [r [c [z [K [HK [Ez [E0 [[G [E1 [SG EG]]] _]]]]]]]].
  exists r, c, (cis (arctan2 (Im z) (Re z))), G. split; [exact E0|]. split; [exact E1|]. split; [exact SG|]. split; [apply Cmod_cis|].
  split; [exact EG|].
  assert (T : tprod ny nx (get b1) (get G) = RtoC (Cmod (xc ny nx (get b1) (get b2) r c))).
  { rewrite <- (in_phase ny nx (get b1) (get b2) r c z K HK Ez). unfold tprod. apply sumNC_ext. intros k Hk. rewrite EG by auto. reflexivity. }
  rewrite T. split; [reflexivity|]. split; [apply Cmod_ge_0|].
  intros w' Hw'. rewrite (tdist_expand ny nx (get b1) (get b2) r c w' Hw').
  assert (D : tdist ny nx (get b1) (get G) = tdist ny nx (get b1) (moved_by ny nx (get b2) r c (cis (arctan2 (Im z) (Re z))))).
  { unfold tdist. apply sumNR_ext. intros k Hk. rewrite EG by auto. reflexivity. }
  rewrite D, tdist_expand by apply Cmod_cis. rewrite (in_phase ny nx _ _ r c z K HK Ez).
  assert (B := tprod_best ny nx (get b1) (get b2) r c w' Hw'). unfold Re at 1, RtoC. cbn [fst]. lra.
Qed.
Print Assumptions C104_in_phase.

(** without maxoff it is the closest of all whole-pixel shifts (usfac=1) or half-pixel shifts (any other usfac up to 2) and all phases *)
Theorem C104_closest :
  forall has_fftw (buf1ft buf2ft : arr C) usfac ret_err nthreads use_np ny nx,
  shape buf1ft = [ny; nx] -> shape buf2ft = [ny; nx] -> (0 < ny)%Z -> (0 < nx)%Z -> 0 < usfac -> usfac <= 2 ->
  exists r c G,
    dftregistration has_fftw buf1ft buf2ft usfac true ret_err None nthreads use_np = Ok (nums [r; c] ++ err_out ret_err usfac ++ [RgFt G]) /\
    forall (s t : Z) w, Cmod w = 1 -> let g := if Req_EM_T usfac 1 then 1 else 2 in
      tdist ny nx (get buf1ft) (get G) <= tdist ny nx (get buf1ft) (moved_by ny nx (get buf2ft) (IZR s / g) (IZR t / g) w).
Proof.
  intros hf b1 b2 u re nt np ny nx S1 _ Hy Hx Hu Hu2.
  destruct (dftreg_ok hf b1 b2 u re None nt np ny nx S1 Hy Hx Hu I) as [r [c [z [K [HK [Ez [E0 [[G [E1 [SG EG]]] [O1 O2]]]]]]]]].
  exists r, c, G. split; [exact E1|]. intros s t w Hw g.
  assert (D : tdist ny nx (get b1) (get G) = tdist ny nx (get b1) (moved_by ny nx (get b2) r c (cis (arctan2 (Im z) (Re z))))).
  { unfold tdist. apply sumNR_ext. intros k Hk. rewrite EG by auto. reflexivity. }
  rewrite D, !tdist_expand by (auto; apply Cmod_cis). rewrite (in_phase ny nx _ _ r c z K HK Ez).
  assert (B := tprod_best ny nx (get b1) (get b2) (IZR s / g) (IZR t / g) w Hw).
  assert (M : Cmod (xc ny nx (get b1) (get b2) (IZR s / g) (IZR t / g)) <= Cmod (xc ny nx (get b1) (get b2) r c)).
  { unfold g. destruct (Req_EM_T u 1) as [U|U]; [|apply O2; auto]. assert (A := O1 U eq_refl s t).
    replace (IZR s / 1) with (IZR s) by field. replace (IZR t / 1) with (IZR t) by field. exact A. }
  unfold Re at 1, RtoC. cbn [fst]. lra.
Qed.
Print Assumptions C104_closest.

(** moving a transform is moving its image: what [moved_by] means for an image, and for a whole-pixel shift *)
Theorem C104_moved_image :
  forall ny nx (a : list Z -> C) r c w k, (0 < ny)%Z -> (0 < nx)%Z -> inb [ny; nx] k ->
  moved_by ny nx (dft [ny; nx] a) r c w k = Cmult w (dft [ny; nx] (fun x => trig_interp [ny; nx] a (subR (toR x) [r; c])) k).
Proof.
  intros ny nx a r c w k Hy Hx Hk. unfold moved_by. f_equal. rewrite <- dft_shifted by auto using pos2.
  apply dft_ext. intros x Hxx. apply inb2 in Hxx. destruct Hxx as [i [j [-> _]]]. unfold shifted. rewrite Ropp_0, cis_0, Cmult_1_l. rewrite <- Dn_interp by auto using pos2. reflexivity.
Qed.
Print Assumptions C104_moved_image.

(** a 1 x 2 pair of transforms, the second one the first times -1 at the second frequency, i.e. rolled by one pixel *)
Definition pairs (s : R) : arr C := mk2 1 2 (fun _ j => if (j =? 0)%Z then RtoC 3 else RtoC s).
Example C104_nonvacuous :
  exists r c G, dftregistration false (pairs 1) (pairs (-1)) 1 true false None 1 false = Ok (nums [r; c] ++ [RgFt G]) /\
    tdist 1 2 (get (pairs 1)) (get G) <= 0.
Proof.
  destruct (C104_closest false (pairs 1) (pairs (-1)) 1 false 1 false 1 2 eq_refl eq_refl ltac:(lia) ltac:(lia) ltac:(lra) ltac:(lra)) as [r [c [G [E H]]]].
  exists r, c, G. split; [exact E|]. assert (W : Cmod (RtoC 1) = 1) by (rewrite Cmod_R, Rabs_right; lra).
  specialize (H 0%Z 1%Z (RtoC 1) W). cbv zeta in H. destruct (Req_EM_T 1 1) as [_|N]; [|contradiction].
  eapply Rle_trans; [exact H|]. right. unfold tdist. 
  rewrite (sumNR_ext _ _ (fun _ => 0)).
  { rewrite sumNR_const0 by auto. reflexivity. }
  intros k Hk. apply inb2 in Hk. destruct Hk as [a [b [-> [Ha Hb]]]]. unfold moved_by. cbn [get pairs mk2 fdot].
  assert (a = 0%Z) by lia. subst a. unfold fftfreq.
  destruct (Z.eqb_spec b 0) as [->|N].
  - rewrite !fidx_0 by lia. replace (- (2 * PI * (0 / 1 * (0 / 1) + (0 / 2 * (1 / 1) + 0)))) with 0 by field. rewrite cis_0.
    replace (Cminus (RtoC 3) (Cmult (RtoC 1) (Cmult (RtoC 3) (RtoC 1)))) with (RtoC 0) by ring. rewrite Cmod_0. ring.
  - assert (b = 1%Z) by lia. subst b. rewrite fidx_0 by lia. change (fidx 2 1) with (-1)%Z.
    replace (- (2 * PI * (0 / 1 * (0 / 1) + (-1 / 2 * (1 / 1) + 0)))) with PI by field.
    replace (cis PI) with (RtoC (-1)) by (unfold cis, RtoC; rewrite cos_PI, sin_PI; reflexivity).
    rewrite <- !RtoC_mult, <- RtoC_minus. replace (1 - 1 * (-1 * -1)) with 0 by ring. rewrite Cmod_0. ring.
Qed.
