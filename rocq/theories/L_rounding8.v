(** Rounding errors of convolvend; used by P_rounding8 *)
From Coq Require Import ZArith Lia List Reals Lra Bool.
From Coquelicot Require Import Complex.
From Verif Require Import Base NDim DFT Kernel Num Py Sum2 M_fast_ffts M_shift M_convolve M_correlate Arg M_chi2 M_xcorr M_register M_rounding M_rounding3 M_rounding7 M_rounding8
  Spec L_shift L_convolve P_convolve P_convolve2 P_rounding L_rounding3 L_rounding7.
Import ListNotations.
Open Scope R_scope.
Notation l1 := P_rounding.l1.

(** the reciprocal of an inexact number *)
Lemma near_recip d' d t : d <> 0 -> 0 <= t < 1 -> Rabs (d' - d) <= Rabs d * t -> d' <> 0 /\ near (/ (1 - t)) (/ Rabs d) (/ d') (/ d).
Proof.
  intros Hd Ht H. assert (P := Rabs_pos_lt d Hd). assert (T : 0 < 1 - t) by lra. assert (IT : 0 < / (1 - t)) by (apply Rinv_0_lt_compat; auto).
  assert (B : Rabs d * (1 - t) <= Rabs d') by (assert (Q := Rabs_triang_inv d (d - d')); replace (d - (d - d')) with d' in Q by ring; rewrite <- (Rabs_Ropp (d - d')), Ropp_minus_distr in Q; lra).
  assert (B0 : 0 < Rabs d * (1 - t)) by (apply Rmult_lt_0_compat; auto).
  assert (D' : d' <> 0) by (intros ->; rewrite Rabs_R0 in B; lra). split; [auto|].
  split; [|split].
  - rewrite <- Rinv_1 at 1. apply Rinv_le_contravar; lra.
  - replace (/ d' - / d) with ((d - d') * (/ d * / d')) by (field; auto). rewrite Rabs_mult, Rabs_mult, !Rabs_inv. rewrite <- Rabs_Ropp, Ropp_minus_distr.
    apply Rle_trans with (Rabs d * t * (/ Rabs d * / (Rabs d * (1 - t)))).
    + assert (I1 : 0 < / Rabs d) by (apply Rinv_0_lt_compat; auto). assert (I2 : 0 < / Rabs d') by (apply Rinv_0_lt_compat; lra).
      assert (I3 : / Rabs d' <= / (Rabs d * (1 - t))) by (apply Rinv_le_contravar; auto).
      apply Rmult_le_compat; auto using Rabs_pos; [left; apply Rmult_lt_0_compat; auto|]. apply Rmult_le_compat_l; lra.
    + right. field. lra.
  - rewrite Rabs_inv. lra.
Qed.
Lemma nearC_Re p M z' z : nearC p M z' z -> near p M (Re z') (Re z).
Proof.
  intros [H1 [H2 H3]]. split; [auto|]. split; [|refine (Rle_trans _ _ _ (re_le_Cmod _) H3)].
  refine (Rle_trans _ _ _ _ H2). change (Re z' - Re z) with (Re (Cminus z' z)). apply re_le_Cmod.
Qed.
Lemma near_nearC p M x' x : near p M x' x -> nearC p M (RtoC x') (RtoC x).
Proof. intros [H1 [H2 H3]]. split; [auto|]. rewrite <- RtoC_minus, !Cmod_R. auto. Qed.
Lemma nearC_eq p q M N z' z : nearC p M z' z -> p = q -> M = N -> nearC q N z' z.
Proof. intros H -> ->. exact H. Qed.
Lemma nearC_refl p M z : 1 <= p -> Cmod z <= M -> nearC p M z z.
Proof.
  intros Hp H. split; [auto|]. split; [|auto]. replace (Cminus z z) with (RtoC 0) by ring. rewrite Cmod_0. apply Rmult_le_pos; [assert (Q := Cmod_ge_0 z); lra|lra].
Qed.

Section Transforms.
Variables (eps : R) (sh : list Z) (A : arith).
Hypothesis (HA : accurate eps sh A) (Hp : pos_shape sh).
Let e0 : 0 <= eps. Proof. exact (proj1 HA). Qed.

Lemma near_fftN (X' X : list Z -> C) (w : list Z -> R) p k : 1 <= p -> (forall i, inb sh i -> nearC p (w i) (X' i) (X i)) -> inb sh k ->
  nearC ((1 + eps) * p) (sumNR sh w) (get (ar_fft A (Arr sh X')) k) (dft sh X k).
Proof.
  intros H1 H Hk. destruct (fwd_bound eps sh A HA (Arr sh X') k eq_refl Hk) as [F _]. cbn [get] in F.
  assert (L' : l1 sh X' <= sumNR sh w * p).
  { unfold P_rounding.l1. rewrite Rmult_comm, <- sumNR_scal. apply sumNR_le. intros i Hi. rewrite Rmult_comm. apply (nearC_abs _ _ _ (X i)). auto. }
  assert (LD : Cmod (Cminus (dft sh X' k) (dft sh X k)) <= sumNR sh w * (p - 1)).
  { rewrite dft_minus. refine (Rle_trans _ _ _ (dft_le _ _ _) _). unfold P_rounding.l1. rewrite Rmult_comm, <- sumNR_scal. apply sumNR_le. intros i Hi. rewrite Rmult_comm. apply (H i Hi). }
  split; [replace 1 with (1 * 1) by ring; apply Rmult_le_compat; lra|]. split.
  - replace (Cminus (get (ar_fft A (Arr sh X')) k) (dft sh X k)) with (Cplus (Cminus (get (ar_fft A (Arr sh X')) k) (dft sh X' k)) (Cminus (dft sh X' k) (dft sh X k))) by ring.
    refine (Rle_trans _ _ _ (Cmod_triangle _ _) _). assert (L2 := Rmult_le_compat_r eps _ _ e0 L').
    replace (sumNR sh w * ((1 + eps) * p - 1)) with (sumNR sh w * p * eps + sumNR sh w * (p - 1)) by ring. lra.
  - refine (Rle_trans _ _ _ (dft_le _ _ _) _). apply sumNR_le. intros i Hi. apply (H i Hi).
Qed.
Lemma near_ifftN (P' P : list Z -> C) M p x : 0 <= M -> 1 <= p -> (forall k, inb sh k -> nearC p M (P' k) (P k)) -> inb sh x ->
  nearC ((1 + eps) * p) M (get (ar_ifft A (Arr sh P')) x) (idft sh P x).
Proof.
  intros HM H1 H Hx. split; [replace 1 with (1 * 1) by ring; apply Rmult_le_compat; lra|]. split.
  - replace ((1 + eps) * p) with ((1 + eps) * (1 + (p - 1))) by ring. apply (inv_bound eps sh A HA Hp); auto; [lra| |].
    + intros k Hk. apply (H k Hk).
    + intros k Hk. apply (H k Hk).
  - assert (P0 := prodZ_pos sh Hp). assert (P1 : 0 < IZR (prodZ sh)) by (apply IZR_lt; lia).
    refine (Rle_trans _ _ _ (idft_l1 sh P x Hp) _). apply (Rmult_le_reg_l (IZR (prodZ sh))); auto. unfold Rdiv. rewrite (Rmult_comm (l1 _ _)), <- Rmult_assoc, Rinv_r, Rmult_1_l by lra.
    apply l1_le_const; auto. intros k Hk. apply (H k Hk).
Qed.
End Transforms.

(** both parts of a complex number times a real one, rounded *)
Lemma near_cscale S eps p q M N z' z c' c : 0 <= eps -> (forall x, Rabs (sa_rd S x - x) <= eps * Rabs x) -> nearC p M z' z -> near q N c' c ->
  nearC ((1 + eps) * (p * q)) (M * N) (sa_rd S (Re z' * c'), sa_rd S (Im z' * c')) (Cmult z (RtoC c)).
Proof.
  intros e0 HR Hz Hc. assert (M0 := nearC_M _ _ _ _ Hz). assert (N0 := near_M _ _ _ _ Hc). assert (Az := nearC_abs _ _ _ _ Hz). assert (Ac := near_abs _ _ _ _ Hc).
  destruct Hz as [H1 [H2 H3]], Hc as [K1 [K2 K3]]. assert (PQ : 1 <= p * q) by (replace 1 with (1 * 1) by ring; apply Rmult_le_compat; lra).
  split; [replace 1 with (1 * 1) by ring; apply Rmult_le_compat; lra|]. split; [|rewrite Cmod_mult, Cmod_R; apply Rmult_le_compat; auto using Cmod_ge_0, Rabs_pos].
  set (r := (sa_rd S (Re z' * c'), sa_rd S (Im z' * c')) : C).
  assert (R1 : Cmod (Cminus r (Cmult z' (RtoC c'))) <= eps * (Cmod z' * Rabs c')).
  { rewrite <- (Cmod_R c'), <- Cmod_mult. unfold Cmod. rewrite <- (sqrt_pow2 eps e0), <- sqrt_mult_alt by (apply pow2_ge_0). apply sqrt_le_1_alt.
    assert (G : forall x y, y = x -> (sa_rd S x + - y) ^ 2 <= eps ^ 2 * y ^ 2).
    { intros x y ->. assert (Q := HR x). rewrite <- (pow2_abs (sa_rd S x + - x)), <- (pow2_abs x), <- Rpow_mult_distr. apply pow_incr. split; [apply Rabs_pos|exact Q]. }
    assert (G1 := G (Re z' * c') (fst (Cmult z' (RtoC c'))) ltac:(unfold Cmult, RtoC, Re; cbn [fst snd]; ring)).
    assert (G2 := G (Im z' * c') (snd (Cmult z' (RtoC c'))) ltac:(unfold Cmult, RtoC, Im; cbn [fst snd]; ring)).
    unfold Cminus, Cplus, Copp. unfold r. cbn [fst snd]. lra. }
  assert (R2 : Cmod (Cminus (Cmult z' (RtoC c')) (Cmult z (RtoC c))) <= M * N * (p * q - 1)).
  { replace (Cminus (Cmult z' (RtoC c')) (Cmult z (RtoC c))) with (Cplus (Cmult (Cminus z' z) (RtoC c')) (Cmult z (RtoC (c' - c)))) by (rewrite RtoC_minus; ring).
    refine (Rle_trans _ _ _ (Cmod_triangle _ _) _). rewrite !Cmod_mult, !Cmod_R.
    assert (Q1 : Cmod (Cminus z' z) * Rabs c' <= M * (p - 1) * (N * q)) by (apply Rmult_le_compat; auto using Cmod_ge_0, Rabs_pos).
    assert (Q2 : Cmod z * Rabs (c' - c) <= M * (N * (q - 1))) by (apply Rmult_le_compat; auto using Cmod_ge_0, Rabs_pos).
    replace (M * N * (p * q - 1)) with (M * (p - 1) * (N * q) + M * (N * (q - 1))) by ring. lra. }
  replace (Cminus r (Cmult z (RtoC c))) with (Cplus (Cminus r (Cmult z' (RtoC c'))) (Cminus (Cmult z' (RtoC c')) (Cmult z (RtoC c)))) by ring.
  refine (Rle_trans _ _ _ (Cmod_triangle _ _) _).
  assert (Q3 : Cmod z' * Rabs c' <= M * p * (N * q)) by (apply Rmult_le_compat; auto using Cmod_ge_0, Rabs_pos).
  assert (Q4 := Rmult_le_compat_l eps _ _ e0 Q3).
  replace (M * N * ((1 + eps) * (p * q) - 1)) with (eps * (M * p * (N * q)) + M * N * (p * q - 1)) by ring. lra.
Qed.
