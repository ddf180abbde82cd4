(** Rounding errors of the half-pixel search and the matrix-multiply refinement; used by P_rounding7 *)
From Coq Require Import ZArith Lia List Reals Lra Bool.
From Coquelicot Require Import Complex.
From Verif Require Import Base NDim DFT Kernel Num Py Sum2 M_fast_ffts M_shift M_scale M_zoom M_upsample M_convolve M_correlate Arg M_chi2 M_xcorr M_register M_rounding M_rounding2 M_rounding3 M_rounding4 M_rounding6 M_rounding7
  Spec L_shift L_scale L_upsample L_convolve Spec2 Spec3 Spec4 L_correlate L_chi2 L_zoom L_register L_register2 L_register3
  L_chi2shift L_fshift L_xcorr P_xcorr P_xcorr2 P_xcorr3 P_chi2map P_chi2errors P_chi2shift P_chi2shift2 P_register P_noise P_rounding P_rounding2 L_iterzoom2 L_rounding3 P_rounding3 P_rounding4 L_rounding6.
Import ListNotations.
Open Scope R_scope.
Notation l1 := P_rounding.l1.

Lemma Cmod_emb1 m a i : RtoC (Cmod (emb1 m a i)) = emb1 m (fun k => RtoC (Cmod (a k))) i.
Proof. unfold emb1. destruct (_ && _); [reflexivity|]. rewrite Cmod_0. reflexivity. Qed.
Lemma emb1_l1 m a : (0 < m)%Z -> sumR (m * 2) (fun k => Cmod (emb1 m a ((k + m * 2 / 2) mod (m * 2)))) = sumR m (fun k => Cmod (a k)).
Proof.
  intros Hm. apply RtoC_inj. rewrite <- !sumC_RtoC. assert (E := emb1_sum m (fun k => RtoC (Cmod (a k))) 0 Hm).
  rewrite (sumC_ext (m * 2) _ (fun k => Cmult (emb1 m (fun k => RtoC (Cmod (a k))) ((k + m * 2 / 2) mod (m * 2))) (cis (2 * PI * (IZR k * 0 / IZR (m * 2)))))).
  - rewrite E. apply sumC_ext. intros k _. replace (2 * PI * (fftfreq m k * (0 / 2))) with 0 by (unfold Rdiv; ring). rewrite cis_0. ring.
  - intros k _. rewrite Cmod_emb1. replace (2 * PI * (IZR k * 0 / IZR (m * 2))) with 0 by (unfold Rdiv; ring). rewrite cis_0. ring.
Qed.
(** the product of the transforms, moved into the larger array *)
Definition larger (ny nx : Z) (a : Z -> Z -> C) : arr C := mk2 (ny * 2) (nx * 2) (ifftshift2 (ny * 2) (nx * 2) (embed2 ny nx (fftshift2 ny nx a))).
Lemma larger_get ny nx a k l : (0 < ny)%Z -> (0 < nx)%Z ->
  get (larger ny nx a) [k; l] = emb1 ny (fun p => emb1 nx (a p) ((l + nx * 2 / 2) mod (nx * 2))) ((k + ny * 2 / 2) mod (ny * 2)).
Proof. intros Hy Hx. cbn [larger get mk2]. unfold ifftshift2, np_ifftshift. apply embed2_eq; auto. Qed.
Lemma larger_l1 ny nx a : (0 < ny)%Z -> (0 < nx)%Z -> l1 [ny * 2; nx * 2]%Z (get (larger ny nx a)) = sum2 ny nx (fun i j => Cmod (a i j)).
Proof.
  intros Hy Hx. unfold P_rounding.l1. rewrite sum2_sumNR. unfold sum2. rewrite sumR_swap.
  rewrite (sumR_ext (nx * 2) _ (fun l => sumR ny (fun k => Cmod (emb1 nx (a k) ((l + nx * 2 / 2) mod (nx * 2)))))).
  - rewrite sumR_swap. apply sumR_ext. intros k _. apply emb1_l1. auto.
  - intros l _. rewrite <- (emb1_l1 ny (fun k => emb1 nx (a k) ((l + nx * 2 / 2) mod (nx * 2)))) by auto. apply sumR_ext. intros k _. rewrite larger_get by auto. reflexivity.
Qed.
Lemma larger_minus ny nx a b k : (0 < ny)%Z -> (0 < nx)%Z -> inb [ny * 2; nx * 2]%Z k ->
  Cminus (get (larger ny nx a) k) (get (larger ny nx b) k) = get (larger ny nx (fun i j => Cminus (a i j) (b i j))) k.
Proof.
  intros Hy Hx Hk. apply inb2 in Hk. destruct Hk as [y [x [-> _]]]. rewrite !larger_get by auto. unfold emb1. destruct (_ && _)%bool; [|ring]. destruct (_ && _)%bool; ring.
Qed.
Lemma idft_l1 sh a x : pos_shape sh -> Cmod (idft sh a x) <= l1 sh a / IZR (prodZ sh).
Proof.
  intros Hp. assert (P := prodZ_pos sh Hp). assert (P' : 0 < IZR (prodZ sh)) by (apply IZR_lt; lia). unfold idft. rewrite Cmod_mult, Cmod_R, Rabs_right by (left; apply Rinv_0_lt_compat; auto).
  unfold Rdiv. rewrite Rmult_comm. apply Rmult_le_compat_r; [left; apply Rinv_0_lt_compat; auto|]. refine (Rle_trans _ _ _ (Cmod_sumNC _ _) _). right. apply sumNR_ext. intros k _. rewrite Cmod_mult, Cmod_cis. ring.
Qed.
Lemma idft_minus sh a b x : Cminus (idft sh a x) (idft sh b x) = idft sh (fun k => Cminus (a k) (b k)) x.
Proof.
  unfold idft. rewrite (sumNC_ext sh (fun k => Cmult (Cminus (a k) (b k)) (cis (2 * PI * phZ sh k x))) (fun k => Cminus (Cmult (a k) (cis (2 * PI * phZ sh k x))) (Cmult (b k) (cis (2 * PI * phZ sh k x))))) by (intros; ring).
  rewrite sumNC_minus. ring.
Qed.

Lemma dft_minus sh a b x : Cminus (dft sh a x) (dft sh b x) = dft sh (fun k => Cminus (a k) (b k)) x.
Proof.
  unfold dft. rewrite <- sumNC_minus. apply sumNC_ext. intros; ring.
Qed.

(** z' is off from z by at most M (p - 1), where M bounds |z| *)
Definition nearC (p M : R) (z' z : C) : Prop := 1 <= p /\ Cmod (Cminus z' z) <= M * (p - 1) /\ Cmod z <= M.
Lemma nearC_mod p M z' z : nearC p M z' z -> near p M (Cmod z') (Cmod z).
Proof.
  intros [H1 [H2 H3]]. split; [auto|]. split; [|rewrite Rabs_right by (apply Rle_ge, Cmod_ge_0); auto].
  refine (Rle_trans _ _ _ _ H2). apply Cmod_diff.
Qed.
Lemma nearC_abs p M z' z : nearC p M z' z -> Cmod z' <= M * p.
Proof. intros [H1 [H2 H3]]. assert (Q := Cmod_near _ _ _ _ H2 H3). lra. Qed.
Lemma nearC_M p M z' z : nearC p M z' z -> 0 <= M.
Proof. intros [_ [_ H]]. assert (Q := Cmod_ge_0 z). lra. Qed.
Lemma nearC_conj p M z' z : nearC p M z' z -> nearC p M (Cconj z') (Cconj z).
Proof.
  intros [H1 [H2 H3]]. split; [auto|]. split; [|rewrite Cmod_Cconj; auto]. rewrite <- Cmod_Cconj in H2. refine (Rle_trans _ _ _ _ H2). right. f_equal.
  unfold Cminus, Cplus, Copp, Cconj. cbn [fst snd]. f_equal; ring.
Qed.
Lemma nearC_mul eps sh A p q M N z' z w' w : accurate eps sh A -> nearC p M z' z -> nearC q N w' w -> nearC ((1 + eps) * (p * q)) (M * N) (ar_mul A z' w') (Cmult z w).
Proof.
  intros HA Hz Hw. assert (e0 := proj1 HA). assert (M0 := nearC_M _ _ _ _ Hz). assert (N0 := nearC_M _ _ _ _ Hw). destruct Hz as [H1 [H2 H3]], Hw as [K1 [K2 K3]].
  assert (PQ : 1 <= p * q) by (replace 1 with (1 * 1) by ring; apply Rmult_le_compat; lra).
  split; [replace 1 with (1 * 1) by ring; apply Rmult_le_compat; lra|]. split.
  - assert (Q := mul_bound eps sh A HA z' z w' w M N (p - 1) (q - 1) M0 N0 ltac:(lra) ltac:(lra) H2 H3 K2 K3).
    replace ((1 + eps) * (p * q)) with ((1 + eps) * ((1 + (p - 1)) * (1 + (q - 1)))) by ring. exact Q.
  - rewrite Cmod_mult. apply Rmult_le_compat; auto using Cmod_ge_0.
Qed.

Section Search.
Variables (eps : R) (ny nx : Z).
Hypothesis (Hy : (0 < ny)%Z) (Hx : (0 < nx)%Z).

(** the transform of an image whose pixels are off *)
Lemma near_fft A (h' : list Z -> R) (h w : Z -> Z -> R) p : accurate eps [ny; nx] A -> 1 <= p ->
  (forall i j, (0 <= i < ny)%Z -> (0 <= j < nx)%Z -> near p (w i j) (h' [i; j]) (h i j)) ->
  forall i j, (0 <= i < ny)%Z -> (0 <= j < nx)%Z ->
    nearC ((1 + eps) * p) (pixel_sum ny nx w) (g2 (ar_fft A (Arr [ny; nx] (fun i => RtoC (h' i)))) i j) (dft [ny; nx] (fun y => RtoC (img2 h y)) [i; j]).
Proof.
  intros HA Hp H i j Hi Hj. assert (e0 := proj1 HA). set (X := Arr [ny; nx] (fun i => RtoC (h' i))).
  assert (I := inb2_intro ny nx i j Hi Hj). destruct (fwd_bound eps [ny; nx] A HA X [i; j] eq_refl I) as [F _].
  assert (L' : l1 [ny; nx] (get X) <= pixel_sum ny nx w * p).
  { unfold P_rounding.l1. rewrite sum2_sumNR, Rmult_comm. change (pixel_sum ny nx w) with (sum2 ny nx w). rewrite <- sum2_scal. apply sum2_le. intros a b Ha Hb. cbn [X get].
    rewrite Cmod_R, Rmult_comm. apply (near_abs _ _ _ (h a b)). auto. }
  assert (LD : Cmod (Cminus (dft [ny; nx] (get X) [i; j]) (dft [ny; nx] (fun y => RtoC (img2 h y)) [i; j])) <= pixel_sum ny nx w * (p - 1)).
  { rewrite dft_minus. refine (Rle_trans _ _ _ (dft_le _ _ _) _). unfold P_rounding.l1. rewrite sum2_sumNR, Rmult_comm. change (pixel_sum ny nx w) with (sum2 ny nx w).
    rewrite <- sum2_scal. apply sum2_le. intros a b Ha Hb. cbn [X get img2]. rewrite <- RtoC_minus, Cmod_R, Rmult_comm. apply (H a b Ha Hb). }
  split; [replace 1 with (1 * 1) by ring; apply Rmult_le_compat; lra|]. split.
  - replace (Cminus (g2 (ar_fft A X) i j) (dft [ny; nx] (fun y => RtoC (img2 h y)) [i; j])) with
      (Cplus (Cminus (g2 (ar_fft A X) i j) (dft [ny; nx] (get X) [i; j])) (Cminus (dft [ny; nx] (get X) [i; j]) (dft [ny; nx] (fun y => RtoC (img2 h y)) [i; j]))) by ring.
    refine (Rle_trans _ _ _ (Cmod_triangle _ _) _). assert (L2 := Rmult_le_compat_r eps _ _ e0 L'). unfold g2.
    replace (pixel_sum ny nx w * ((1 + eps) * p - 1)) with (pixel_sum ny nx w * p * eps + pixel_sum ny nx w * (p - 1)) by ring. lra.
  - refine (Rle_trans _ _ _ (dft_le _ _ _) _). unfold P_rounding.l1. rewrite sum2_sumNR. apply sum2_le. intros a b Ha Hb. cbn [img2]. rewrite Cmod_R. apply (H a b Ha Hb).
Qed.

(** the correlation on the half-pixel grid *)
Lemma near_coarse A' f g (P' : Z -> Z -> C) p M : accurate eps [ny * 2; nx * 2]%Z A' -> 1 <= p -> 
  let P := fun i j => Cmult (dft [ny; nx] (fun y => RtoC (img2 f y)) [i; j]) (Cconj (dft [ny; nx] (fun y => RtoC (img2 g y)) [i; j])) in
  (forall i j, (0 <= i < ny)%Z -> (0 <= j < nx)%Z -> nearC p M (P' i j) (P i j)) ->
  forall r c, (0 <= r < ny * 2)%Z -> (0 <= c < nx * 2)%Z ->
    near ((1 + eps) * p) (M / 4) (Cmod (g2 (ar_ifft A' (larger ny nx P')) r c)) (mag ny nx f g (IZR r / 2) (IZR c / 2) / 4).
Proof.
  intros HA Hp P H r c Hr Hc. assert (e0 := proj1 HA). assert (Hp2 : pos_shape [ny * 2; nx * 2]%Z) by (apply pos2; lia).
  assert (NY : 0 < IZR ny) by (apply IZR_lt; auto). assert (NX : 0 < IZR nx) by (apply IZR_lt; auto).
  assert (EN : IZR (prodZ [ny * 2; nx * 2]%Z) = 4 * (IZR ny * IZR nx)) by (cbn [prodZ]; rewrite !mult_IZR; ring).
  assert (SUM : forall (h : Z -> Z -> R) K, (forall i j, (0 <= i < ny)%Z -> (0 <= j < nx)%Z -> h i j <= K) -> sum2 ny nx h / IZR (prodZ [ny * 2; nx * 2]%Z) <= K / 4).
  { intros h K Hh. rewrite EN. assert (Q : sum2 ny nx h <= IZR ny * IZR nx * K).
    { refine (Rle_trans _ (sum2 ny nx (fun _ _ => K)) _ (sum2_le _ _ _ _ Hh) _). right. unfold sum2. rewrite (sumR_ext ny _ (fun _ => IZR nx * K)) by (intros; apply sumR_const; lia). rewrite sumR_const by lia. ring. }
    apply (Rmult_le_reg_r (4 * (IZR ny * IZR nx))); [assert (0 < IZR ny * IZR nx) by (apply Rmult_lt_0_compat; auto); lra|]. unfold Rdiv. rewrite Rmult_assoc, Rinv_l, Rmult_1_r; [|assert (0 < IZR ny * IZR nx) by (apply Rmult_lt_0_compat; auto); lra]. lra. }
  assert (E := rcc_grid2 ny nx f g r c Hy Hx). cbv zeta in E. fold P in E. change (get (mk2 (ny * 2) (nx * 2) (ifftshift2 (ny * 2) (nx * 2) (embed2 ny nx (fftshift2 ny nx P))))) with (get (larger ny nx P)) in E.
  assert (EM : mag ny nx f g (IZR r / 2) (IZR c / 2) / 4 = Cmod (idft [ny * 2; nx * 2]%Z (get (larger ny nx P)) [r; c])).
  { rewrite E, Cmod_mult, Cmod_R, Rabs_right by lra. unfold mag, Rdiv. ring. }
  rewrite EM. apply nearC_mod. split; [replace 1 with (1 * 1) by ring; apply Rmult_le_compat; lra|]. split.
  - destruct HA as [_ [_ [HI _]]]. destruct (HI (larger ny nx P') eq_refl) as [_ Q]. specialize (Q [r; c] (inb2_intro _ _ _ _ Hr Hc)).
    rewrite larger_l1 in Q by auto. assert (Q1 := SUM (fun i j => Cmod (P' i j)) (M * p) ltac:(intros; apply (nearC_abs _ _ _ (P i j)); auto)).
    assert (Q2 : Cmod (Cminus (idft [ny * 2; nx * 2]%Z (get (larger ny nx P')) [r; c]) (idft [ny * 2; nx * 2]%Z (get (larger ny nx P)) [r; c])) <= M * (p - 1) / 4).
    { rewrite idft_minus. refine (Rle_trans _ _ _ (idft_l1 _ _ _ Hp2) _). rewrite (P_rounding.l1_ext _ _ (get (larger ny nx (fun i j => Cminus (P' i j) (P i j))))) by (intros; apply larger_minus; auto).
      rewrite larger_l1 by auto. apply SUM. intros i j Hi Hj. apply (H i j Hi Hj). }
    assert (Q3 := Rmult_le_compat_l eps _ _ e0 Q1). unfold g2.
    replace (Cminus (get (ar_ifft A' (larger ny nx P')) [r; c]) (idft [ny * 2; nx * 2]%Z (get (larger ny nx P)) [r; c])) with
      (Cplus (Cminus (get (ar_ifft A' (larger ny nx P')) [r; c]) (idft [ny * 2; nx * 2]%Z (get (larger ny nx P')) [r; c])) (Cminus (idft [ny * 2; nx * 2]%Z (get (larger ny nx P')) [r; c]) (idft [ny * 2; nx * 2]%Z (get (larger ny nx P)) [r; c]))) by ring.
    refine (Rle_trans _ _ _ (Cmod_triangle _ _) _). replace (M / 4 * ((1 + eps) * p - 1)) with (eps * (M * p / 4) + M * (p - 1) / 4) by field. lra.
  - refine (Rle_trans _ _ _ (idft_l1 _ _ _ Hp2) _). rewrite larger_l1 by auto. apply SUM. intros i j Hi Hj. apply (H i j Hi Hj).
Qed.
End Search.

Lemma near_rel mu p M y x' x : 0 <= mu -> near p M x' x -> Rabs (y - x') <= mu * Rabs x' -> near ((1 + mu) * p) M y x.
Proof.
  intros m0 H Q. assert (A := near_abs _ _ _ _ H). assert (HM := near_M _ _ _ _ H). destruct H as [H1 [H2 H3]].
  assert (E := Rmult_le_pos _ _ m0 (Rle_trans _ _ _ Rle_0_1 H1)).
  split; [replace ((1 + mu) * p) with (p + mu * p) by ring; lra|]. split; [|auto].
  replace (y - x) with ((y - x') + (x' - x)) by ring. refine (Rle_trans _ _ _ (Rabs_triang _ _) _). assert (Q2 := Rmult_le_compat_l mu _ _ m0 A).
  replace (M * ((1 + mu) * p - 1)) with (mu * (M * p) + M * (p - 1)) by ring. lra.
Qed.
Lemma near_Rabs p M x' x : near p M x' x -> near p M (Rabs x') (Rabs x).
Proof. intros [H1 [H2 H3]]. split; [auto|]. split; [|rewrite Rabs_Rabsolu; auto]. refine (Rle_trans _ _ _ (Rabs_triang_inv2 _ _) H2). Qed.

(** bound on the positions of the fine grid around a peak of an axis of n pixels *)
Definition reach (n : Z) : R := IZR n / 2 + 4.
(** how far the phase of a kernel entry can be off *)
Definition phase_error (mu : R) (n : Z) : R := PI * reach n * ((1 + mu) ^ 12 - 1).

Section Fine.
Variables (mu : R) (S : sarith) (u : R).
Hypothesis (HR : rounds mu S) (Hmu : mu <= 1 / 4) (Hu : 2 < u).
Let m0 : 0 <= mu. Proof. exact (proj1 HR). Qed.
Notation P k := ((1 + mu) ^ k).
Let L := fine_size u.
Let d := (L / 2)%Z.

Lemma iu : 0 < / u < 1 / 2.
Proof. split; [apply Rinv_0_lt_compat; lra|]. replace (1 / 2) with (/ 2) by field. apply Rinv_lt_contravar; lra. Qed.
Lemma L_bound : (0 < L)%Z /\ IZR L <= u * (3 / 2) + 1.
Proof. assert (Q := fine_size_pos u Hu). split; [unfold L; lia|]. assert (C := ceilR_spec (u * (3 / 2))). unfold L, fine_size. lra. Qed.
Lemma d_bound : (0 <= d <= L)%Z /\ IZR d <= IZR L / 2.
Proof.
  destruct L_bound as [L0 _]. split; [unfold d; split; [apply Z.div_pos; lia|apply Z.div_le_upper_bound; lia]|].
  assert (Q : (2 * d <= L)%Z) by (apply Z.mul_div_le; lia). apply IZR_le in Q. rewrite mult_IZR in Q. lra.
Qed.
Lemma R0_bound n a : (- n <= a <= n)%Z -> Rabs (IZR (roundR (IZR a / 2 * u))) <= (IZR n / 2) * u + 1 / 2.
Proof.
  intros Ha. assert (A : Rabs (IZR a) <= IZR n) by (rewrite <- abs_IZR; apply IZR_le; lia). assert (Q := roundR_spec (IZR a / 2 * u)).
  set (z := IZR (roundR _)) in *. replace z with ((z - IZR a / 2 * u) + IZR a / 2 * u) by ring. refine (Rle_trans _ _ _ (Rabs_triang _ _) _).
  assert (B : Rabs (IZR a / 2 * u) <= IZR n / 2 * u); [|lra]. unfold Rdiv. rewrite !Rabs_mult, (Rabs_right (/ 2)), (Rabs_right u) by lra. apply Rmult_le_compat_r; [lra|]. apply Rmult_le_compat_r; lra.
Qed.

Section Axis.
Variables (n a : Z).
Hypothesis (Hn : (0 < n)%Z) (Ha : (- n <= a <= n)%Z).
Let R0 := roundR (IZR a / 2 * u).
Let row0 := sa_rd S (IZR R0 / u).
Let roff := sa_rd S (IZR d - sa_rd S (row0 * u)).
Let n0 : 0 < IZR n. Proof. apply IZR_lt; auto. Qed.

Lemma row0_near : near (P 1) (Rabs (IZR R0) / u) row0 (IZR R0 / u).
Proof.
  unfold row0. apply (nearR mu S HR 0). apply (nearx mu S HR). unfold Rdiv. rewrite Rabs_mult, (Rabs_right (/ u)); [lra|]. assert (Q := iu). lra.
Qed.
Lemma roff_near : near (P 3) (IZR d + Rabs (IZR R0)) roff (IZR d - IZR R0).
Proof.
  assert (U := iu). destruct d_bound as [D0 _]. unfold roff. apply (nearR mu S HR). apply near_sub.
  - apply (nearx mu S HR). rewrite Rabs_right; [lra|]. apply Rle_ge, IZR_le. lia.
  - apply (nearR mu S HR). assert (Q := near_scal _ _ u _ _ row0_near). rewrite (Rabs_right u) in Q by lra.
    replace (u * (Rabs (IZR R0) / u)) with (Rabs (IZR R0)) in Q by (field; lra). replace (u * (IZR R0 / u)) with (IZR R0) in Q by (field; lra). rewrite Rmult_comm. exact Q.
Qed.
Lemma node_near r : (0 <= r < L)%Z -> near (P 4) (reach n * u) (sa_rd S (IZR r - roff)) (IZR (R0 + r - d)).
Proof.
  intros Hr. assert (U := iu). destruct L_bound as [L0 L1]. destruct d_bound as [D0 D1]. assert (RB := R0_bound n a Ha). fold R0 in RB.
  assert (Z0 : 0 <= IZR r <= IZR L) by (split; apply IZR_le; lia).
  apply (nearR mu S HR). replace (IZR (R0 + r - d)) with (IZR r - (IZR d - IZR R0)) by (rewrite minus_IZR, plus_IZR; ring).
  apply (near_more _ (IZR r + (IZR d + Rabs (IZR R0)))).
  - apply near_sub; [apply (nearx mu S HR); rewrite Rabs_right; lra|]. apply roff_near.
  - unfold reach. lra.
Qed.
Lemma two_pi_near : near (P 1) (2 * PI) (- sa_rd S (2 * PI)) (- (2 * PI)).
Proof. assert (PP := PI_RGT_0). apply near_opp. apply (nearR mu S HR 0). apply (nearx mu S HR). rewrite Rabs_right; lra. Qed.
Lemma freq_near k : (0 <= k < n)%Z -> near (P 1) (1 / 2) (sa_rd S (IZR (fidx n k) / IZR n)) (fftfreq n k).
Proof. intros Hk. apply (nearR mu S HR 0). apply (nearx mu S HR). apply fftfreq_half; auto. Qed.
Lemma row_phase r k : (0 <= r < L)%Z -> (0 <= k < n)%Z ->
  near (P 12) (PI * reach n) (sa_rd S (sa_rd S (sa_rd S (- sa_rd S (2 * PI) / sa_rd S (IZR n * u)) * sa_rd S (IZR r - roff)) * IZR (fidx n k)))
    (- (2 * PI) * (fftfreq n k * (IZR (R0 + r - d) / u))).
Proof.
  intros Hr Hk. assert (NU : 0 < IZR n * u) by (apply Rmult_lt_0_compat; [exact n0|lra]).
  assert (Nu : near (P 2) (IZR n * u) (sa_rd S (IZR n * u)) (IZR n * u)).
  { apply (nearw mu S HR 1); [|lia]. apply (nearR mu S HR 0). apply (nearx mu S HR). rewrite Rabs_right; lra. }
  assert (W := near_quot mu S HR 1 _ _ _ _ _ Hmu NU Nu two_pi_near). change (Datatypes.S (1 + 4)) with 6%nat in W.
  assert (Q := near_mul _ _ _ _ _ _ _ _ W (node_near r Hr)). rewrite <- pow_add in Q. change (6 + 4)%nat with 10%nat in Q. apply (nearR mu S HR) in Q.
  assert (F := nearx mu S HR 0 (IZR n / 2) (IZR (fidx n k)) (fidx_half n k Hn Hk)).
  assert (Q2 := near_mul _ _ _ _ _ _ _ _ Q F). rewrite <- pow_add in Q2. change (11 + 0)%nat with 11%nat in Q2. apply (nearR mu S HR) in Q2.
  assert (N0 := n0). replace (- (2 * PI) * (fftfreq n k * (IZR (R0 + r - d) / u))) with (- (2 * PI) / (IZR n * u) * IZR (R0 + r - d) * IZR (fidx n k)) by (unfold fftfreq; field; lra).
  apply (near_eq _ (P 12) _ (PI * reach n)) in Q2; [exact Q2|reflexivity|field; lra].
Qed.
Lemma col_phase c l : (0 <= c < L)%Z -> (0 <= l < n)%Z ->
  near (P 12) (PI * reach n) (sa_rd S (sa_rd S (- sa_rd S (2 * PI) * sa_rd S (IZR (fidx n l) / IZR n)) * sa_rd S (sa_rd S (IZR c - roff) / u)))
    (- (2 * PI) * (fftfreq n l * (IZR (R0 + c - d) / u))).
Proof.
  intros Hc Hl. assert (U := iu). assert (T := node_near c Hc). apply (near_scal _ _ (/ u)) in T. rewrite (Rabs_right (/ u)) in T by lra. apply (nearR mu S HR) in T.
  assert (Q := near_mul _ _ _ _ _ _ _ _ two_pi_near (freq_near l Hl)). rewrite <- pow_add in Q. change (1 + 1)%nat with 2%nat in Q. apply (nearR mu S HR) in Q.
  assert (Q2 := near_mul _ _ _ _ _ _ _ _ Q T). rewrite <- pow_add in Q2. change (3 + 5)%nat with 8%nat in Q2. apply (nearR mu S HR) in Q2. apply (nearw mu S HR 9 12) in Q2; [|lia].
  replace (sa_rd S (IZR c - roff) / u) with (/ u * sa_rd S (IZR c - roff)) by (unfold Rdiv; ring).
  replace (- (2 * PI) * (fftfreq n l * (IZR (R0 + c - d) / u))) with (- (2 * PI) * fftfreq n l * (/ u * IZR (R0 + c - d))) by (unfold Rdiv; ring).
  apply (near_eq _ (P 12) _ (PI * reach n)) in Q2; [exact Q2|reflexivity|field; lra].
Qed.
(** the reported position *)
Lemma offset_near i : (0 <= i < L)%Z -> near (P 3) (reach n) (sa_rd S (row0 + sa_rd S ((IZR i - IZR d) / u))) (IZR (R0 + i - d) / u).
Proof.
  intros Hi. assert (U := iu). destruct L_bound as [L0 L1]. destruct d_bound as [D0 D1]. assert (RB := R0_bound n a Ha). fold R0 in RB.
  replace (IZR (R0 + i - d) / u) with (IZR R0 / u + (IZR i - IZR d) / u) by (rewrite minus_IZR, plus_IZR; field; lra).
  assert (I0 : Rabs (IZR i - IZR d) <= IZR L) by (rewrite <- minus_IZR, <- abs_IZR; apply IZR_le; lia).
  apply (near_more _ (Rabs (IZR R0) / u + IZR L / u)).
  - apply (nearw mu S HR 2); [|lia]. apply (nearw mu S HR 2); [|lia]. apply (nearR mu S HR). apply near_add; [apply row0_near|]. apply (nearR mu S HR 0). apply (nearx mu S HR).
    unfold Rdiv. rewrite Rabs_mult, (Rabs_right (/ u)) by lra. apply Rmult_le_compat_r; lra.
  - unfold reach. replace (Rabs (IZR R0) / u + IZR L / u) with ((Rabs (IZR R0) + IZR L) * / u) by (unfold Rdiv; ring).
    refine (Rle_trans _ ((IZR n / 2 * u + 1 / 2 + (u * (3 / 2) + 1)) * / u) _ _ _); [apply Rmult_le_compat_r; lra|].
    replace ((IZR n / 2 * u + 1 / 2 + (u * (3 / 2) + 1)) * / u) with (IZR n / 2 + 3 / 2 + 3 / 2 * / u) by (field; lra). lra.
Qed.
End Axis.

(** complex division by the normalisation and the modulus *)
Lemma near_cdiv N q M z' z : 0 < N -> nearC q (N * M) z' z ->
  near (q * P 7) (M / u ^ 2) (sa_rd S (Cmod (cdiv_fp S z' (sa_rd S (N * sa_rd S (u ^ 2)))))) (Cmod z / N / u ^ 2).
Proof.
  intros HN Hz. assert (U2 : 0 < u ^ 2) by (apply pow_lt; lra). assert (NU : 0 < N * u ^ 2) by (apply Rmult_lt_0_compat; auto).
  assert (D : near (P 2) (N * u ^ 2) (sa_rd S (N * sa_rd S (u ^ 2))) (N * u ^ 2)).
  { apply (nearR mu S HR). assert (Q : near (P 1) (u ^ 2) (sa_rd S (u ^ 2)) (u ^ 2)) by (apply (nearR mu S HR 0); apply (nearx mu S HR); rewrite Rabs_right; lra).
    apply (near_scal _ _ N) in Q. rewrite (Rabs_right N) in Q by lra. exact Q. }
  set (dn := sa_rd S (N * sa_rd S (u ^ 2))) in *. destruct (near_inv mu S HR dn _ Hmu NU D) as [D0 DI].
  assert (SC : near (P 5) (/ (N * u ^ 2)) (sa_rd S (1 / dn)) (/ (N * u ^ 2))) by (apply (nearR mu S HR); unfold Rdiv; rewrite Rmult_1_l; exact DI).
  unfold cdiv_fp. set (scl := sa_rd S (1 / dn)) in *. assert (SA := near_Rabs _ _ _ _ SC). rewrite (Rabs_right (/ (N * u ^ 2))) in SA by (left; apply Rinv_0_lt_compat; auto).
  assert (Q := near_mul _ _ _ _ _ _ _ _ (nearC_mod _ _ _ _ Hz) SA).
  assert (Q1 : near (q * P 5) (M / u ^ 2) (Cmod z' * Rabs scl) (Cmod z / N / u ^ 2)).
  { replace (Cmod z / N / u ^ 2) with (Cmod z * / (N * u ^ 2)) by (field; lra). apply (near_eq _ (q * P 5) _ (M / u ^ 2)) in Q; [exact Q|reflexivity|field; lra]. }
  assert (B : forall x, exists e, sa_rd S x = x + e /\ Rabs e <= mu * Rabs x) by (intros x; exists (sa_rd S x - x); split; [ring|apply (proj2 HR)]).
  destruct (B (Re z' * scl)) as [e1 [-> E1]]. destruct (B (Im z' * scl)) as [e2 [-> E2]].
  assert (ZS : Cmod z' * Rabs scl = Cmod (Cmult z' (RtoC scl))) by (rewrite Cmod_mult, Cmod_R; reflexivity).
  assert (ER : Cmod (e1, e2) <= mu * Cmod (Cmult z' (RtoC scl))).
  { assert (EQ : Cmult z' (RtoC scl) = (Re z' * scl, Im z' * scl)) by (unfold Cmult, RtoC, Re, Im; cbn [fst snd]; f_equal; ring). rewrite EQ. unfold Cmod. cbn [fst snd].
    rewrite <- (sqrt_Rsqr mu m0), <- sqrt_mult_alt by apply Rle_0_sqr. apply sqrt_le_1_alt. unfold Rsqr.
    assert (S1 : forall e x, Rabs e <= mu * Rabs x -> e ^ 2 <= mu * mu * x ^ 2).
    { intros e x H. rewrite <- (pow2_abs e), <- (pow2_abs x). replace (mu * mu * Rabs x ^ 2) with ((mu * Rabs x) ^ 2) by ring. apply pow_incr. split; [apply Rabs_pos|auto]. }
    assert (A1 := S1 _ _ E1). assert (A2 := S1 _ _ E2). lra. }
  assert (Q2 : near (P 1 * (q * P 5)) (M / u ^ 2) (Cmod (Re z' * scl + e1, Im z' * scl + e2)) (Cmod z / N / u ^ 2)).
  { replace (P 1) with (1 + mu) by ring. apply (near_rel mu _ _ _ (Cmod z' * Rabs scl)); [exact m0|exact Q1|]. rewrite (Rabs_right (Cmod z' * Rabs scl)) by (apply Rle_ge, Rmult_le_pos; [apply Cmod_ge_0|apply Rabs_pos]).
    rewrite ZS. refine (Rle_trans _ _ _ (Cmod_diff _ _) _). refine (Rle_trans _ _ _ _ ER). right. f_equal. unfold Cminus, Cplus, Copp, Cmult, RtoC, Re, Im. cbn [fst snd]. f_equal; ring. }
  assert (Q3 := near_rel mu _ _ (sa_rd S (Cmod (Re z' * scl + e1, Im z' * scl + e2))) _ _ m0 Q2 (proj2 HR _)).
  apply (near_eq _ (q * P 7) _ (M / u ^ 2)) in Q3; [exact Q3|ring|reflexivity].
Qed.
End Fine.

(** the matrix products *)
Lemma near_matrix eps T B ny nx mu (P' P : Z -> Z -> C) ty' ty tx' tx M p : (0 < ny)%Z -> (0 < nx)%Z -> 0 <= mu -> accurate_zoom eps T [ny; nx] B -> 1 <= p ->
  PI * reach ny * (1 + mu) ^ 12 <= T -> PI * reach nx * (1 + mu) ^ 12 <= T ->
  (forall k, (0 <= k < ny)%Z -> near ((1 + mu) ^ 12) (PI * reach ny) (ty' k) (ty k)) -> (forall l, (0 <= l < nx)%Z -> near ((1 + mu) ^ 12) (PI * reach nx) (tx' l) (tx l)) ->
  (forall k l, (0 <= k < ny)%Z -> (0 <= l < nx)%Z -> nearC p M (P' k l) (P k l)) ->
  nearC ((1 + eps) ^ 4 * p + phase_error mu ny + phase_error mu nx) (IZR (ny * nx) * M)
    (za_dot B nx (fun l => za_dot B ny (fun k => za_cis B (ty' k)) (fun k => P' k l)) (fun l => za_cis B (tx' l)))
    (sumC nx (fun l => Cmult (sumC ny (fun k => Cmult (cis (ty k)) (P k l))) (cis (tx l)))).
Proof.
  intros Hy Hx m0 HB Hp HTy HTx Hty Htx H. assert (e0 := proj1 HB). assert (M0 : 0 <= M) by (apply (nearC_M _ _ _ _ (H 0%Z 0%Z ltac:(lia) ltac:(lia)))).
  assert (P12 : 1 <= (1 + mu) ^ 12) by (apply pow_R1_Rle; lra). assert (PP := PI_RGT_0).
  assert (NY : 0 < IZR ny) by (apply IZR_lt; auto). assert (NX : 0 < IZR nx) by (apply IZR_lt; auto).
  assert (PE : forall n, 0 < IZR n -> 0 <= phase_error mu n) by (intros n N0; unfold phase_error, reach; apply Rmult_le_pos; [apply Rmult_le_pos; lra|lra]).
  assert (EY := PE ny NY). assert (EX := PE nx NX). assert (E4 : 1 <= (1 + eps) ^ 4) by (apply pow_R1_Rle; lra).
  assert (QB := matrix_bound eps T [ny; nx] B ny nx P' P ty' tx' M p HB ltac:(cbn; auto) ltac:(cbn; auto) Hy Hx M0 Hp).
  specialize (QB ltac:(intros k Hk; refine (Rle_trans _ _ _ (near_abs _ _ _ _ (Hty k Hk)) HTy)) ltac:(intros l Hl; refine (Rle_trans _ _ _ (near_abs _ _ _ _ (Htx l Hl)) HTx))).
  specialize (QB ltac:(intros k l Hk Hl; destruct (H k l Hk Hl) as [_ Q]; exact Q)).
  set (E' := sumC nx (fun l => Cmult (sumC ny (fun k => Cmult (cis (ty' k)) (P k l))) (cis (tx' l)))) in *.
  set (E := sumC nx (fun l => Cmult (sumC ny (fun k => Cmult (cis (ty k)) (P k l))) (cis (tx l)))).
  assert (C2 : forall K, sumR nx (fun _ => sumR ny (fun _ => K)) = IZR (ny * nx) * K).
  { intros K. rewrite (sumR_ext nx _ (fun _ => IZR ny * K)) by (intros; apply sumR_const; lia). rewrite sumR_const, mult_IZR by lia. ring. }
  assert (LIP : Cmod (Cminus E' E) <= IZR (ny * nx) * M * (phase_error mu ny + phase_error mu nx)).
  { unfold E', E. rewrite <- sumC_minus. refine (Rle_trans _ _ _ (Cmod_sumC _ _) _). rewrite Rmult_assoc, <- C2. apply sumR_le. intros l Hl.
    replace (Cminus (Cmult (sumC ny (fun k => Cmult (cis (ty' k)) (P k l))) (cis (tx' l))) (Cmult (sumC ny (fun k => Cmult (cis (ty k)) (P k l))) (cis (tx l))))
      with (sumC ny (fun k => Cmult (Cplus (Cmult (Cminus (cis (ty' k)) (cis (ty k))) (cis (tx' l))) (Cmult (cis (ty k)) (Cminus (cis (tx' l)) (cis (tx l))))) (P k l))).
    2:{ rewrite <- !sumC_scal_r, <- sumC_minus. apply sumC_ext. intros; ring. }
    refine (Rle_trans _ _ _ (Cmod_sumC _ _) _). apply sumR_le. intros k Hk. rewrite Cmod_mult, Rmult_comm. apply Rmult_le_compat; auto using Cmod_ge_0.
    - apply (H k l Hk Hl).
    - refine (Rle_trans _ _ _ (Cmod_triangle _ _) _). rewrite !Cmod_mult, !Cmod_cis, Rmult_1_r, Rmult_1_l. unfold phase_error. apply Rplus_le_compat.
      + refine (Rle_trans _ _ _ (cis_lip _ _) _). apply (Hty k Hk).
      + refine (Rle_trans _ _ _ (cis_lip _ _) _). apply (Htx l Hl). }
  split; [|split].
  - assert (1 <= (1 + eps) ^ 4 * p) by (replace 1 with (1 * 1) by ring; apply Rmult_le_compat; lra). lra.
  - match goal with |- Cmod (Cminus ?X E) <= _ => replace (Cminus X E) with (Cplus (Cminus X E') (Cminus E' E)) by ring end.
    refine (Rle_trans _ _ _ (Cmod_triangle _ _) _). lra.
  - unfold E. refine (Rle_trans _ _ _ (Cmod_sumC _ _) _). rewrite <- C2. apply sumR_le. intros l Hl. rewrite Cmod_mult, Cmod_cis, Rmult_1_r. refine (Rle_trans _ _ _ (Cmod_sumC _ _) _).
    apply sumR_le. intros k Hk. rewrite Cmod_mult, Cmod_cis, Rmult_1_l. apply (H k l Hk Hl).
Qed.
