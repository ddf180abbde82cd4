(** C124: convolvend with every operation rounded *)
From Coq Require Import ZArith Lia List Reals Lra Bool FunctionalExtensionality.
From Coquelicot Require Import Complex.
From Verif Require Import Base NDim DFT Kernel Num Py Sum2 M_fast_ffts M_shift M_convolve M_correlate Arg M_chi2 M_xcorr M_register M_rounding M_rounding3 M_rounding7 M_rounding8
  Spec L_shift L_convolve P_rounding L_rounding3 L_rounding7 L_rounding8 L_iterzoom2 P_convolve P_convolve2 L_chi2shift.
Notation l1 := P_rounding.l1.
Notation padded := P_convolve2.padded.
Import ListNotations.
Open Scope R_scope.

(** sum of the moduli of the image [f] of shape [n] padded with [bg] to the shape [N] *)
Definition mass (N n : list Z) (f : list Z -> R) (bg : R) : R := sumNR N (fun p => Rabs (padded N n f bg p)).
(** sum of the kernel; sum of the moduli; their quotient, 1 for a non-negative kernel *)
Definition ksum (kernel : arr num) : R := sumNR (shape kernel) (fun k => pix (get kernel k)).
Definition kabs (kernel : arr num) : R := sumNR (shape kernel) (fun k => Rabs (pix (get kernel k))).
Definition condition (kernel : arr num) : R := kabs kernel / Rabs (ksum kernel).
(** factor by which the rounding of the normalisation can change the kernel *)
Definition kernel_rounding (eps : R) (kernel : arr num) (nk : normk) : R :=
  match nk with NkFalse => 1 | NkTrue => (1 + eps) ^ 2 / (1 - eps * condition kernel) | NkFun _ => (1 + eps) ^ 2 end.
(** the sum of the kernel is known well enough to divide by it *)
Definition divisible (eps : R) (kernel : arr num) (nk : normk) : Prop := match nk with NkTrue => eps * condition kernel < 1 | _ => True end.
(** rounding cannot change whether the kernel counts as normalised *)
Definition sum_doubt (eps : R) (kernel : arr num) : R := (kabs kernel + 1) * ((1 + eps) ^ 2 - 1) + eps / 10 ^ 8.
Definition clearly_normalised (eps : R) (kernel : arr num) (nk : normk) : Prop :=
  match nk with NkFalse => Rabs (ksum kernel - 1) + sum_doubt eps kernel < / 10 ^ 8 | _ => True end.
Definition clearly_not_normalised (eps : R) (kernel : arr num) (nk : normk) : Prop :=
  match nk with NkFalse => / 10 ^ 8 + sum_doubt eps kernel <= Rabs (ksum kernel - 1) | _ => False end.

(** a value, a weight and their quotient can be off by *)
Definition value_error (eps m : R) (kernel : arr num) (nk : normk) (nu : R) : R :=
  m * (kabs kernel / Rabs nu) * ((1 + eps) ^ 4 * kernel_rounding eps kernel nk - 1).
Definition weights_doubt (eps : R) (kernel : arr num) (nk : normk) : R := condition kernel * ((1 + eps) * kernel_rounding eps kernel nk - 1).
Definition weight_error (eps m : R) (kernel : arr num) (nk : normk) : R :=
  m * condition kernel * ((1 + eps) ^ 6 * kernel_rounding eps kernel nk / (1 - weights_doubt eps kernel nk) - 1).
Definition quotient_error (eps m : R) (kernel : arr num) (nk : normk) (nu w dw : R) : R :=
  m * (kabs kernel / Rabs nu) / w * ((1 + eps) ^ 6 * kernel_rounding eps kernel nk / (1 - dw / w) - 1).


Lemma least_pow2_unique P Q l : least_pow2 P l -> least_pow2 Q l -> P = Q.
Proof. intros [[i [Hi ->]] [H2 H3]] [[j [Hj ->]] [K2 K3]]. apply Z.le_antisymm; auto. Qed.
Lemma padded_shape_unique b fp pp ash ksh N M : padded_shape b fp pp ash ksh N -> padded_shape b fp pp ash ksh M -> N = M.
Proof.
  unfold padded_shape. destruct (match b with BWrap => false | _ => fp end); [|congruence].
  intros [P [HP ->]] [Q [HQ ->]]. rewrite (least_pow2_unique _ _ _ HP HQ). reflexivity.
Qed.

Section Kernel.
Variables (eps : R) (S : sarith) (kernel : arr num).
Hypothesis HS : accurate_scalar eps (Z.to_nat (prodZ (shape kernel))) S.
Hypothesis Hk : pos_shape (shape kernel).
Let e0 : 0 <= eps. Proof. exact (proj1 HS). Qed.

Lemma kabs_nonneg : 0 <= kabs kernel.
Proof. apply sumNR_nonneg. intros. apply Rabs_pos. Qed.
Lemma ksum_le : Rabs (ksum kernel) <= kabs kernel.
Proof. apply sumNR_abs. Qed.
Lemma ksum_near : near (1 + eps) (kabs kernel) (sa_sum S (values (shape kernel) (fun i => nan0 (get kernel i)))) (ksum kernel).
Proof.
  apply (near_eq ((1 + eps) * 1) _ (kabs kernel)); [|ring|reflexivity]. unfold kabs, ksum.
  apply (near_values eps _ S HS _ 1 (fun k => Rabs (pix (get kernel k)))); auto; [lra|].
  intros i _. apply near_refl; [lra|apply Rle_refl].
Qed.

Lemma normalise_near nk nu : divided_by kernel nk nu -> nu <> 0 -> divisible eps kernel nk ->
  exists kern norm, normalise_fp S kernel nk = Ok (Some kern, norm) /\ 1 <= kernel_rounding eps kernel nk /\
    (forall i, near (kernel_rounding eps kernel nk) (Rabs (pix (get kernel i)) / Rabs nu) (kern i) (pix (get kernel i) / nu)) /\
    (clearly_normalised eps kernel nk -> norm = true) /\ (clearly_not_normalised eps kernel nk -> norm = false).
Proof.
  intros Hd Hnu Hdv. assert (NP := Rabs_pos_lt nu Hnu).
  assert (DIV : forall d p, 1 <= p -> d <> 0 -> near p (/ Rabs nu) (/ d) (/ nu) -> forall i,
     near ((1 + eps) ^ 2 * p) (Rabs (pix (get kernel i)) / Rabs nu) (sa_rd S (nan0 (get kernel i) * sa_rd S (1 / d))) (pix (get kernel i) / nu)).
  { intros d p Hp Hd0 Hn i. replace ((1 + eps) ^ 2 * p) with ((1 + eps) * ((1 + eps) * p)) by ring. apply (near_rd eps _ S HS). change nan0 with pix. unfold Rdiv.
    apply (near_eq (1 * ((1 + eps) * p)) _ (Rabs (pix (get kernel i)) * / Rabs nu)); [|ring|reflexivity].
    apply near_mul; [apply near_refl; [lra|apply Rle_refl]|]. apply (near_rd eps _ S HS). rewrite Rmult_1_l. exact Hn. }
  destruct nk as [| |f]; cbn [divided_by divisible kernel_rounding normalise_fp clearly_normalised clearly_not_normalised] in *.
  - subst nu. eexists. eexists. split; [reflexivity|]. split; [lra|]. split; [|].
    + intros i. change nan0 with pix. rewrite Rabs_R1. unfold Rdiv. rewrite Rinv_1, !Rmult_1_r. apply near_refl; lra.
    + assert (Q : near ((1 + eps) ^ 2) (kabs kernel + 1) (sa_rd S (sa_sum S (values (shape kernel) (fun i => nan0 (get kernel i))) - 1)) (ksum kernel - 1)).
      { replace ((1 + eps) ^ 2) with ((1 + eps) * (1 + eps)) by ring. apply (near_rd eps _ S HS). unfold Rminus. apply near_add; [apply ksum_near|]. apply near_refl; [lra|]. rewrite Rabs_Ropp, Rabs_R1. lra. }
      destruct Q as [_ [Q _]]. assert (T := proj1 (proj2 HS) (/ 10 ^ 8)). rewrite (Rabs_right (/ 10 ^ 8)) in T by lra. apply Rcomplements.Rabs_le_between in T.
      set (y := sa_rd S (sa_sum S _ - 1)) in *. assert (Y : Rabs (Rabs y - Rabs (ksum kernel - 1)) <= Rabs (y - (ksum kernel - 1))) by apply Rabs_triang_inv2.
      apply Rcomplements.Rabs_le_between in Y. unfold sum_doubt. split; intros C; destruct (Rlt_dec _ _) as [L|L]; auto; exfalso; lra.
  - assert (C0 : 0 <= condition kernel) by (unfold condition; apply Rmult_le_pos; [apply kabs_nonneg|left; apply Rinv_0_lt_compat; subst nu; exact NP]).
    assert (T0 : 0 <= eps * condition kernel) by (apply Rmult_le_pos; auto).
    destruct ksum_near as [_ [Q _]]. fold (ksum kernel) in Hd. rewrite <- Hd in Q.
    destruct (near_recip (sa_sum S (values (shape kernel) (fun i => nan0 (get kernel i)))) nu (eps * condition kernel) Hnu (conj T0 Hdv)) as [D0 DN].
    { refine (Rle_trans _ _ _ Q _). unfold condition. rewrite <- Hd. right. field. lra. }
    destruct (Req_EM_T _ 0) as [E|_]; [contradiction|]. eexists. eexists. split; [reflexivity|]. split; [|split; [|tauto]].
    + assert (DN1 := proj1 DN). unfold Rdiv. replace 1 with (1 * 1) at 1 by ring. apply Rmult_le_compat; try lra. assert (0 <= eps ^ 2) by apply pow2_ge_0. replace ((1 + eps) ^ 2) with (1 + 2 * eps + eps ^ 2) by ring. lra.
    + apply DIV; auto. apply (proj1 DN).
  - rewrite (Hd (Arr (shape kernel) (fun i => RtoC (nan0 (get kernel i))))); [|reflexivity|intros i; reflexivity].
    cbn [Re Im fst snd RtoC]. destruct (Req_EM_T 0 0) as [_|N0]; [|contradiction]. destruct (Req_EM_T nu 0) as [E|_]; [contradiction|].
    eexists. eexists. split; [reflexivity|]. split; [|split; [|tauto]].
    + assert (0 <= eps ^ 2) by apply pow2_ge_0. replace ((1 + eps) ^ 2) with (1 + 2 * eps + eps ^ 2) by ring. lra.
    + intros i. replace ((1 + eps) ^ 2) with ((1 + eps) ^ 2 * 1) by ring. apply DIV; auto; try lra. apply near_refl; [lra|]. rewrite Rabs_inv. lra.
Qed.
End Kernel.

Section Convolve.
Variables (eps : R) (A : arith) (S : sarith) (array kernel : arr num) (b : boundary) (v : R) (fp pp : bool) (nk : normk) (nu : R).
Hypothesis Ha : pos_shape (shape array).
Hypothesis Hk : pos_shape (shape kernel).
Hypothesis Hl : length (shape array) = length (shape kernel).
Hypothesis Hne : shape array <> [].
Hypothesis Hb : b <> BExtend.
Hypothesis Hdiv : divided_by kernel nk nu.
Hypothesis Hnu : nu <> 0.
Let bg := match b with BWrap => 0 | _ => v end.
Let fpad := fst (fst (pads b fp pp (Fin v))).
Let ppad := snd (fst (pads b fp pp (Fin v))).
Let N := newshape fpad ppad (shape array) (shape kernel).
Hypothesis HA : accurate eps N A.
Hypothesis HS : accurate_scalar eps (Z.to_nat (prodZ (shape kernel))) S.
Hypothesis Hdv : divisible eps kernel nk.
Let e0 : 0 <= eps. Proof. exact (proj1 HS). Qed.
Let q := kernel_rounding eps kernel nk.
Let K := kabs kernel / Rabs nu.

Let Hsh : shapes_ok (shape array) (shape kernel). Proof. repeat split; auto. Qed.
Let HpN : pos_shape N. Proof. apply (newshape_pos fpad ppad _ _ Hsh). Qed.
Let Hfk : fits (starts N (shape kernel)) (shape kernel) N. Proof. exact (Forall2_fits _ _ (newshape_ge_kernel fpad ppad _ _ Hsh)). Qed.
Let Hfa : fits (starts N (shape array)) (shape array) N. Proof. exact (Forall2_fits _ _ (newshape_ge_array fpad ppad _ _ Hsh)). Qed.
Let NU : 0 < Rabs nu. Proof. exact (Rabs_pos_lt nu Hnu). Qed.
Let K0 : 0 <= K. Proof. apply Rmult_le_pos; [apply kabs_nonneg|left; apply Rinv_0_lt_compat; exact NU]. Qed.

Variable kern : list Z -> R.
Hypothesis q1 : 1 <= q.
Hypothesis Hkern : forall i, near q (Rabs (pix (get kernel i)) / Rabs nu) (kern i) (pix (get kernel i) / nu).

Let kf' := ar_fft A (Arr N (ifftshiftN N (embed N (shape kernel) (fun i => RtoC (kern i)) (RtoC 0)))).
Let kf := dft N (ifftshiftN N (embed N (shape kernel) (fun i => RtoC (pix (get kernel i) / nu)) (RtoC 0))).

Lemma kernel_near k : inb N k -> nearC ((1 + eps) * q) K (get kf' k) (kf k).
Proof.
  intros Hkk. assert (E : K = sumNR N (fun i => embed N (shape kernel) (fun i => Rabs (pix (get kernel i)) / Rabs nu) 0 (modl N (addl i (map (fun n => (n / 2)%Z) N))))).
  { rewrite (sumNR_mod_shift N (embed N (shape kernel) (fun i => Rabs (pix (get kernel i)) / Rabs nu) 0)) by (auto; rewrite map_length; reflexivity).
    unfold embed. rewrite (sumNR_window (starts N (shape kernel)) (shape kernel) N (fun i => Rabs (pix (get kernel i)) / Rabs nu)) by exact Hfk.
    unfold K, kabs, Rdiv. rewrite sumNR_scal_r. reflexivity. }
  rewrite E. apply (near_fftN eps N A HA); auto. intros i Hi. unfold ifftshiftN, embed. destruct (inbb _ _).
  - apply near_nearC, Hkern.
  - apply nearC_refl; [exact q1|]. rewrite Cmod_0. apply Rle_refl.
Qed.
Lemma image_near (X : list Z -> C) f g k : (forall i, X i = embed N (shape array) (fun i => RtoC (f i)) (RtoC g) i) -> inb N k ->
  nearC (1 + eps) (mass N (shape array) f g) (get (ar_fft A (Arr N X)) k) (dft N (embed N (shape array) (fun i => RtoC (f i)) (RtoC g)) k).
Proof.
  intros HX Hkk. apply (nearC_eq ((1 + eps) * 1) _ (mass N (shape array) f g)); [|ring|reflexivity]. unfold mass.
  apply (near_fftN eps N A HA); auto; [lra|]. intros i Hi. rewrite HX. apply nearC_refl; [lra|]. unfold embed, padded. rewrite offset_starts, modl_small by exact Hi.
  destruct (inbb _ _); rewrite Cmod_R; apply Rle_refl.
Qed.
Let prod' X k := ar_mul A (get (ar_fft A (Arr N X)) k) (get kf' k).
Let prod f g k := Cmult (dft N (embed N (shape array) (fun i => RtoC (f i)) (RtoC g)) k) (kf k).
Lemma product_near X f g k : (forall i, X i = embed N (shape array) (fun i => RtoC (f i)) (RtoC g) i) -> inb N k ->
  nearC ((1 + eps) ^ 3 * q) (mass N (shape array) f g * K) (prod' X k) (prod f g k).
Proof.
  intros HX Hkk. apply (nearC_eq ((1 + eps) * ((1 + eps) * ((1 + eps) * q))) _ (mass N (shape array) f g * K)); [|ring|reflexivity].
  apply (nearC_mul eps N A (1 + eps) ((1 + eps) * q)); auto using image_near, kernel_near.
Qed.
Lemma exact_conv f g X : inb N X -> idft N (prod f g) X = RtoC (conv_spec kernel (padded N (shape array) f g) X / nu).
Proof.
  intros HX. destruct (divided_norm kernel nk nu Hdiv Hnu) as [_ Hkv]. unfold prod, kf.
  rewrite conv_core by auto. rewrite <- (core_value array kernel b v fp pp nk nu Hdiv Hnu). fold fpad ppad. fold N.
  apply sumNC_ext. intros k _. rewrite Hkv. reflexivity.
Qed.
Lemma mass_nonneg f g : 0 <= mass N (shape array) f g.
Proof. apply sumNR_nonneg. intros. apply Rabs_pos. Qed.
Lemma value_near Y f g X : (forall i, Y i = embed N (shape array) (fun i => RtoC (f i)) (RtoC g) i) -> inb N X ->
  near ((1 + eps) ^ 4 * q) (mass N (shape array) f g * K) (Re (get (ar_ifft A (Arr N (prod' Y))) X)) (conv_spec kernel (padded N (shape array) f g) X / nu).
Proof.
  intros HY HX. assert (MK : 0 <= mass N (shape array) f g * K) by (apply Rmult_le_pos; [apply mass_nonneg|exact K0]).
  assert (P3 : 1 <= (1 + eps) ^ 3 * q) by (replace 1 with (1 * 1) at 1 by ring; apply Rmult_le_compat; try lra; apply pow_R1_Rle; lra).
  replace (conv_spec kernel (padded N (shape array) f g) X / nu) with (Re (idft N (prod f g) X)) by (rewrite exact_conv; auto).
  apply (near_eq ((1 + eps) * ((1 + eps) ^ 3 * q)) _ (mass N (shape array) f g * K)); [|ring|reflexivity].
  apply nearC_Re, (near_ifftN eps N A HA); auto. intros k Hkk. apply product_near; auto.
Qed.

(** the weights *)
Hypothesis Hs : ksum kernel <> 0.
Hypothesis Hw : weights_doubt eps kernel nk < 1.
Let s' := sa_sum S (values (shape kernel) kern).
Let delta := weights_doubt eps kernel nk.
Let condition_nonneg : 0 <= condition kernel.
Proof. apply Rmult_le_pos; [apply kabs_nonneg|left; apply Rinv_0_lt_compat, Rabs_pos_lt; exact Hs]. Qed.
Let delta_nonneg : 0 <= delta.
Proof. apply Rmult_le_pos; [exact condition_nonneg|]. fold q. assert (1 * 1 <= (1 + eps) * q) by (apply Rmult_le_compat; lra). lra. Qed.
Lemma sum_near : s' <> 0 /\ near (/ (1 - delta)) (Rabs nu / Rabs (ksum kernel)) (/ s') (nu / ksum kernel).
Proof.
  assert (SP := Rabs_pos_lt _ Hs).
  assert (Q : near ((1 + eps) * q) (sumNR (shape kernel) (fun i => Rabs (pix (get kernel i)) / Rabs nu)) s' (sumNR (shape kernel) (fun i => pix (get kernel i) / nu))).
  { apply (near_values eps _ S HS); auto. }
  assert (E1 : sumNR (shape kernel) (fun i => Rabs (pix (get kernel i)) / Rabs nu) = K) by (unfold Rdiv; rewrite sumNR_scal_r; reflexivity).
  assert (E2 : sumNR (shape kernel) (fun i => pix (get kernel i) / nu) = ksum kernel / nu) by (unfold Rdiv; rewrite sumNR_scal_r; reflexivity).
  rewrite E1, E2 in Q. destruct Q as [_ [Q _]].
  assert (D0 : ksum kernel / nu <> 0) by (apply Rmult_integral_contrapositive; split; auto; apply Rinv_neq_0_compat; auto).
  assert (AE : Rabs (ksum kernel / nu) = Rabs (ksum kernel) / Rabs nu) by (unfold Rdiv; rewrite Rabs_mult, Rabs_inv; reflexivity).
  destruct (near_recip s' (ksum kernel / nu) delta D0 (conj delta_nonneg Hw)) as [G1 G2].
  { refine (Rle_trans _ _ _ Q _). rewrite AE. unfold delta, weights_doubt, K, condition. fold q. right. field. lra. }
  split; [exact G1|]. refine (near_eq _ _ _ _ _ _ _ eq_refl _).
  - replace (nu / ksum kernel) with (/ (ksum kernel / nu)) by (field; auto). exact G2.
  - rewrite AE. field. lra.
Qed.
Lemma weight_near Y f g X : (forall i, Y i = embed N (shape array) (fun i => RtoC (f i)) (RtoC g) i) -> inb N X ->
  near ((1 + eps) ^ 6 * q / (1 - delta)) (mass N (shape array) f g * condition kernel)
    (Re (get (ar_ifft A (Arr N (fun k => cdiv_fp S (prod' Y k) s'))) X)) (conv_spec kernel (padded N (shape array) f g) X / ksum kernel).
Proof.
  intros HY HX. assert (SP := Rabs_pos_lt _ Hs). destruct sum_near as [S1 S2].
  assert (D1 := proj1 S2).
  set (c := nu / ksum kernel) in *.
  assert (MK : 0 <= mass N (shape array) f g * condition kernel) by (apply Rmult_le_pos; [apply mass_nonneg|exact condition_nonneg]).
  assert (P3 : 1 <= (1 + eps) ^ 3 * q) by (replace 1 with (1 * 1) at 1 by ring; apply Rmult_le_compat; try lra; apply pow_R1_Rle; lra).
  assert (P5 : 1 <= (1 + eps) * ((1 + eps) ^ 3 * q * ((1 + eps) * / (1 - delta)))).
  { assert (1 * 1 <= (1 + eps) * / (1 - delta)) by (apply Rmult_le_compat; lra).
    assert (1 * 1 <= (1 + eps) ^ 3 * q * ((1 + eps) * / (1 - delta))) by (apply Rmult_le_compat; lra).
    assert (1 * 1 <= (1 + eps) * ((1 + eps) ^ 3 * q * ((1 + eps) * / (1 - delta)))) by (apply Rmult_le_compat; lra). lra. }
  assert (PT : forall k, inb N k -> nearC ((1 + eps) * ((1 + eps) ^ 3 * q * ((1 + eps) * / (1 - delta)))) (mass N (shape array) f g * condition kernel)
     (cdiv_fp S (prod' Y k) s') (Cmult (prod f g k) (RtoC c))).
  { intros k Hkk. refine (nearC_eq _ _ (mass N (shape array) f g * K * (Rabs nu / Rabs (ksum kernel))) _ _ _ _ eq_refl _).
    - unfold cdiv_fp. cbv zeta. apply near_cscale; auto; [apply (proj1 (proj2 HS))|apply product_near; auto|].
      apply (near_rd eps _ S HS). unfold Rdiv at 2. rewrite Rmult_1_l. exact S2.
    - unfold K, condition. field. lra. }
  assert (EX : conv_spec kernel (padded N (shape array) f g) X / ksum kernel = Re (idft N (fun k => Cmult (prod f g k) (RtoC c)) X)).
  { rewrite (idft_scal_r N (prod f g) (RtoC c) X), exact_conv by auto. rewrite <- RtoC_mult. cbn [Re fst RtoC]. unfold c. field. auto. }
  rewrite EX.
  apply (near_eq ((1 + eps) * ((1 + eps) * ((1 + eps) ^ 3 * q * ((1 + eps) * / (1 - delta))))) _ (mass N (shape array) f g * condition kernel)); [|unfold Rdiv; ring|reflexivity].
  apply nearC_Re, (near_ifftN eps N A HA); auto.
Qed.
End Convolve.

(** what comes after the kernel has been normalised *)
Definition fp_result (A : arith) (S : sarith) (array : arr num) (N ksh : list Z) (bg : R) (kern : list Z -> R) (norm crop return_fft fftshift interp edge : bool) (min_wt : R) : convres :=
  let ash := shape array in
  let kf := ar_fft A (Arr N (ifftshiftN N (embed N ksh (fun i => RtoC (kern i)) (RtoC 0)))) in
  let prod := fun X k => ar_mul A (get (ar_fft A (Arr N X)) k) (get kf k) in
  let fm := Arr N (prod (embed N ash (fun i => RtoC (pix (get array i))) (RtoC bg))) in
  let ks := sa_sum S (values ksh kern) in
  let wt0 := embed N ash (fun i => if isnan (get array i) && interp then RtoC 0 else RtoC 1) (if edge then RtoC 0 else RtoC 1) in
  let wtsm := ar_ifft A (Arr N (fun k => cdiv_fp S (prod wt0 k) ks)) in
  let inside := fun i => inbb ash (subl i (starts N ash)) in
  let bigimwt := fun i => Rmax 0 (if inside i then Re (get wtsm i) else Re (wt0 i)) in
  if return_fft then
    ConvFFT (if fftshift then if crop then crop_to N ash (fftshiftN N (get fm)) else Arr N (fftshiftN N (get fm)) else fm)
  else let rifft := if (interp || edge) && norm
                   then fun i => if (if Req_EM_T ks 0 then true else false) && inside i then NaN
                                 else reweight_fp S min_wt (get (ar_ifft A fm) i) (bigimwt i)
                   else fun i => Fin (Re (get (ar_ifft A fm) i)) in
      ConvReal (if crop then crop_to N ash rifft else Arr N rifft).

Lemma fp_unfold A S (array kernel : arr num) b v fp pp nk crop rf fs interp edge mw kern norm :
  shapes_ok (shape array) (shape kernel) -> shape array <> [] -> b <> BExtend ->
  normalise_fp S kernel nk = Ok (Some kern, norm) ->
  let bg := match b with BWrap => 0 | _ => v end in
  convolvend_fp A S true true array kernel b (Fin v) crop rf fs fp pp interp edge mw nk =
  Ok (fp_result A S array (newshape (fst (fst (pads b fp pp (Fin v)))) (snd (fst (pads b fp pp (Fin v)))) (shape array) (shape kernel)) (shape kernel) bg kern norm crop rf fs interp edge mw).
Proof.
  intros Hsh Hne Hb HN bg. unfold convolvend_fp. cbn [negb].
  replace (Nat.eqb (ndim array) (ndim kernel)) with true by (symmetry; apply Nat.eqb_eq; apply Hsh). cbn [negb].
  rewrite HN. cbn [bind].
  assert (Hpads : (match b with
    | BNone | BFill => Ok (fp, true, Fin v) | BWrap => Ok (false, false, Fin 0)
    | BExtend => Raise NotImplementedError | BOther => Ok (fp, pp, Fin v) end) = Ok (fst (fst (pads b fp pp (Fin v))), snd (fst (pads b fp pp (Fin v))), Fin bg)).
  { unfold bg. destruct b; try reflexivity. contradiction. }
  rewrite Hpads. cbn [bind].
  set (fpad := fst (fst (pads b fp pp (Fin v)))). set (ppad := snd (fst (pads b fp pp (Fin v)))).
  replace (fpad && Nat.eqb (length (shape array)) 0) with false by (destruct fpad, (shape array); auto; contradiction).
  destruct (newshape_pos fpad ppad _ _ Hsh) as [HpN _].
  rewrite check_fft_ok by auto. cbn [bind isnan andb]. unfold fp_result. destruct rf; reflexivity.
Qed.

Lemma Rmax_near p M a' a : near p M a' a -> Rabs (Rmax 0 a' - Rmax 0 a) <= M * (p - 1).
Proof. intros [_ [H _]]. refine (Rle_trans _ _ _ _ H). unfold Rmax. destruct (Rle_dec 0 a'), (Rle_dec 0 a); apply Rcomplements.Rabs_le_between; split_Rabs; lra. Qed.

Section Pixels.
Variables (eps : R) (A : arith) (S : sarith) (array kernel : arr num) (b : boundary) (v : R) (fp pp : bool) (nk : normk) (nu : R) (N : list Z).
Hypothesis Ha : pos_shape (shape array).
Hypothesis Hk : pos_shape (shape kernel).
Hypothesis Hl : length (shape array) = length (shape kernel).
Hypothesis Hne : shape array <> [].
Hypothesis Hb : b <> BExtend.
Hypothesis Hdiv : divided_by kernel nk nu.
Hypothesis Hnu : nu <> 0.
Hypothesis HN : padded_shape b fp pp (shape array) (shape kernel) N.
Hypothesis HA : accurate eps N A.
Hypothesis HS : accurate_scalar eps (Z.to_nat (prodZ (shape kernel))) S.
Hypothesis Hdv : divisible eps kernel nk.
Let bg := match b with BWrap => 0 | _ => v end.
Let e0 : 0 <= eps. Proof. exact (proj1 HS). Qed.
Let NE : N = newshape (fst (fst (pads b fp pp (Fin v)))) (snd (fst (pads b fp pp (Fin v)))) (shape array) (shape kernel).
Proof. exact (padded_shape_unique _ _ _ _ _ _ _ HN (N_ok array kernel b v fp pp Ha Hk Hl Hne Hb)). Qed.

Lemma value_near' kern Y f g X : 1 <= kernel_rounding eps kernel nk ->
  (forall i, near (kernel_rounding eps kernel nk) (Rabs (pix (get kernel i)) / Rabs nu) (kern i) (pix (get kernel i) / nu)) ->
  (forall i, Y i = embed N (shape array) (fun i => RtoC (f i)) (RtoC g) i) -> inb N X ->
  near ((1 + eps) ^ 4 * kernel_rounding eps kernel nk) (mass N (shape array) f g * (kabs kernel / Rabs nu))
    (Re (get (ar_ifft A (Arr N (fun k => ar_mul A (get (ar_fft A (Arr N Y)) k)
       (get (ar_fft A (Arr N (ifftshiftN N (embed N (shape kernel) (fun i => RtoC (kern i)) (RtoC 0))))) k)))) X))
    (conv_spec kernel (padded N (shape array) f g) X / nu).
Proof. clear HN. subst N. intros K2 K3. apply (value_near eps A S array kernel b v fp pp nk nu Ha Hk Hl Hdiv Hnu HA HS kern K2 K3). Qed.
Lemma weight_near' kern Y f g X : 1 <= kernel_rounding eps kernel nk ->
  (forall i, near (kernel_rounding eps kernel nk) (Rabs (pix (get kernel i)) / Rabs nu) (kern i) (pix (get kernel i) / nu)) ->
  ksum kernel <> 0 -> weights_doubt eps kernel nk < 1 ->
  (forall i, Y i = embed N (shape array) (fun i => RtoC (f i)) (RtoC g) i) -> inb N X ->
  near ((1 + eps) ^ 6 * kernel_rounding eps kernel nk / (1 - weights_doubt eps kernel nk)) (mass N (shape array) f g * condition kernel)
    (Re (get (ar_ifft A (Arr N (fun k => cdiv_fp S (ar_mul A (get (ar_fft A (Arr N Y)) k)
       (get (ar_fft A (Arr N (ifftshiftN N (embed N (shape kernel) (fun i => RtoC (kern i)) (RtoC 0))))) k)) (sa_sum S (values (shape kernel) kern))))) X))
    (conv_spec kernel (padded N (shape array) f g) X / ksum kernel).
Proof. clear HN. subst N. intros K2 K3 Hs Hw. apply (weight_near eps A S array kernel b v fp pp nk nu Ha Hk Hl Hdiv Hnu HA HS kern K2 K3 Hs Hw). Qed.

(** the transform returned *)
Lemma fft_main interp edge mw :
  exists F G, shape F = N /\
    (forall x, inb N x -> idft N G x = RtoC (conv_spec kernel (padded N (shape array) (fun i => pix (get array i)) bg) x / nu)) /\
    (forall k, inb N k -> Cmod (Cminus (get F k) (G k)) <= mass N (shape array) (fun i => pix (get array i)) bg * (kabs kernel / Rabs nu) * ((1 + eps) ^ 3 * kernel_rounding eps kernel nk - 1)) /\
    forall crop fs, convolvend_fp A S true true array kernel b (Fin v) crop true fs fp pp interp edge mw nk =
      Ok (ConvFFT (if fs then if crop then crop_to N (shape array) (fftshiftN N (get F)) else Arr N (fftshiftN N (get F)) else F)).
Proof.
  destruct (normalise_near eps S kernel HS Hk nk nu Hdiv Hnu Hdv) as [kern [norm [K1 [K2 [K3 _]]]]].
  assert (U := fun crop fs => fp_unfold A S array kernel b v fp pp nk crop true fs interp edge mw kern norm (conj Ha (conj Hk Hl)) Hne Hb K1).
  cbv zeta in U. rewrite <- NE in U. unfold fp_result in U. cbv zeta in U.
  eexists. eexists. split; [|split; [|split; [|intros crop fs; rewrite U; reflexivity]]]; [reflexivity| |]; clear U HN; subst N.
  - intros x Hx. apply (exact_conv array kernel b v fp pp nk nu Ha Hk Hl Hdiv Hnu). exact Hx.
  - intros k Hkk. apply (product_near eps A array kernel b v fp pp nk nu Ha Hk Hl HA kern K2 K3); auto.
Qed.

Lemma offset_inb x : inb (shape array) x -> inb N (addl x (offset N (shape array))).
Proof.
  intros H. rewrite offset_starts. clear HN. subst N. assert (Hsh : shapes_ok (shape array) (shape kernel)) by (repeat split; auto).
  apply (fits_addl _ _ _ _ (Forall2_fits _ _ (newshape_ge_array _ _ _ _ Hsh)) H).
Qed.
(** the image returned *)
Lemma conv_main crop fs interp edge mw :
  exists out, convolvend_fp A S true true array kernel b (Fin v) crop false fs fp pp interp edge mw nk = Ok (ConvReal out) /\
    shape out = (if crop then shape array else N) /\
    forall x, inb (shape out) x ->
      let X := if crop then addl x (offset N (shape array)) else x in
      let inside := inbb (shape array) (subl X (offset N (shape array))) in
      let image := fun i => pix (get array i) in
      let value := conv_spec kernel (padded N (shape array) image bg) X / nu in
      let outside_weight := if edge then 0 else 1 in
      let weights := valid_weight interp array in
      let weight := if inside then Rmax 0 (conv_spec kernel (padded N (shape array) weights outside_weight) X / ksum kernel) else outside_weight in
      let dw := if inside then weight_error eps (mass N (shape array) weights outside_weight) kernel nk else 0 in
      (interp = false /\ edge = false \/ clearly_not_normalised eps kernel nk ->
         exists r, get out x = Fin r /\ Rabs (r - value) <= value_error eps (mass N (shape array) image bg) kernel nk nu) /\
      (interp = true \/ edge = true -> clearly_normalised eps kernel nk -> ksum kernel <> 0 -> weights_doubt eps kernel nk < 1 ->
         (weight + dw < mw -> get out x = NaN) /\
         (mw <= weight - dw -> 0 < weight - dw ->
            exists r, get out x = Fin r /\ Rabs (r - value / weight) <= quotient_error eps (mass N (shape array) image bg) kernel nk nu weight dw) /\
         (inside = false -> edge = true -> mw = 0 -> get out x = Fin 0)).
Proof.
  destruct (normalise_near eps S kernel HS Hk nk nu Hdiv Hnu Hdv) as [kern [norm [K1 [K2 [K3 [K4 K5]]]]]].
  eexists. split; [rewrite (fp_unfold A S array kernel b v fp pp nk crop false fs interp edge mw kern norm); [|repeat split; auto|auto|auto|auto]; rewrite <- NE; reflexivity|].
  split; [destruct crop; reflexivity|]. intros x Hx. cbv zeta. rewrite offset_starts.
  set (X := if crop then addl x (starts N (shape array)) else x).
  assert (HX : inb N X) by (unfold X; rewrite <- offset_starts; destruct crop; [apply offset_inb|]; exact Hx).
  set (ks := sa_sum S (values (shape kernel) kern)) in *.
  match goal with |- (_ -> exists r, get (if crop then crop_to N (shape array) ?F else _) x = _ /\ _) /\ _ => set (rifft := F) end.
  assert (EO : get (if crop then crop_to N (shape array) rifft else Arr N rifft) x = rifft X) by (unfold X; destruct crop; reflexivity).
  rewrite EO. clear EO.
  set (Y := embed N (shape array) (fun i => RtoC (pix (get array i))) (RtoC bg)) in *.
  set (W := embed N (shape array) (fun i => if isnan (get array i) && interp then RtoC 0 else RtoC 1) (if edge then RtoC 0 else RtoC 1)) in *.
  assert (VN := value_near' kern Y (fun i => pix (get array i)) bg X K2 K3 (fun i => eq_refl) HX).
  set (conv := get (ar_ifft A _) X) in VN.
  set (value := conv_spec kernel (padded N (shape array) (fun i => pix (get array i)) bg) X / nu) in *.
  set (mk := mass N (shape array) (fun i => pix (get array i)) bg) in *.
  split.
  - intros Hc. exists (Re conv). split.
    + unfold rifft. replace ((interp || edge) && norm) with false; [reflexivity|]. symmetry. destruct Hc as [[-> ->]|Hc]; [reflexivity|]. rewrite (K5 Hc). apply andb_false_r.
    + unfold value_error. exact (proj1 (proj2 VN)).
  - intros Hie Hn Hs0 Hwd. assert (Eie : interp || edge = true) by (destruct Hie; subst; auto using orb_true_r).
    assert (WE : forall i, W i = embed N (shape array) (fun i => RtoC (valid_weight interp array i)) (RtoC (if edge then 0 else 1)) i).
    { intros i. unfold W, embed. destruct (inbb _ _); [|destruct edge; reflexivity]. unfold valid_weight. destruct (get array _), interp; reflexivity. }
    assert (WN := weight_near' kern W (valid_weight interp array) (if edge then 0 else 1) X K2 K3 Hs0 Hwd WE HX).
    fold ks in WN. set (wt := Re (get (ar_ifft A _) X)) in WN.
    destruct (sum_near eps S kernel nk nu Hk Hnu HS kern K2 K3 Hs0 Hwd) as [S1 _]. fold ks in S1.
    set (w' := Rmax 0 (if inbb (shape array) (subl X (starts N (shape array))) then wt else Re (W X))).
    assert (ER : rifft X = reweight_fp S mw conv w').
    { unfold rifft. rewrite Eie, (K4 Hn). cbn [andb]. destruct (Req_EM_T ks 0) as [E|_]; [contradiction|]. reflexivity. }
    rewrite ER. clear ER.
    set (inside := inbb (shape array) (subl X (starts N (shape array)))) in *.
    set (weight := if inside then _ else _). set (dw := if inside then _ else _).
    assert (DW : Rabs (w' - weight) <= dw).
    { unfold w', weight, dw. destruct inside eqn:Ein.
      - unfold weight_error. exact (Rmax_near _ _ _ _ WN).
      - assert (E : Re (W X) = if edge then 0 else 1) by (rewrite WE; unfold embed; fold inside; rewrite Ein; reflexivity).
        rewrite E. replace (Rmax 0 (if edge then 0 else 1)) with (if edge then 0 else 1) by (destruct edge; unfold Rmax; destruct (Rle_dec _ _); lra).
        right. replace ((if edge then 0 else 1) - (if edge then 0 else 1)) with 0 by ring. apply Rabs_R0. }
    assert (DW' := DW). apply Rcomplements.Rabs_le_between in DW'.
    split; [|split].
    + intros Hlow. unfold reweight_fp. destruct (Rlt_dec w' mw) as [_|L]; [reflexivity|]. exfalso. lra.
    + intros Hmw Hpos. assert (D0 : 0 <= dw) by (assert (Q := Rabs_pos (w' - weight)); lra). assert (W0 : 0 < weight) by lra.
      unfold reweight_fp. destruct (Rlt_dec w' mw) as [L|_]; [exfalso; lra|]. destruct (Req_EM_T w' 0) as [E|_]; [exfalso; lra|].
      eexists. split; [reflexivity|]. unfold cdiv_fp. cbn [Re fst].
      assert (T : 0 <= dw / weight < 1).
      { split; [apply Rmult_le_pos; [auto|left; apply Rinv_0_lt_compat; auto]|]. apply (Rmult_lt_reg_r weight); auto. unfold Rdiv. rewrite Rmult_assoc, Rinv_l by lra. lra. }
      destruct (near_recip w' weight (dw / weight)) as [_ RN]; [lra|exact T| |].
      { rewrite (Rabs_right weight) by lra. replace (weight * (dw / weight)) with dw by (field; lra). exact DW. }
      assert (Q : near ((1 + eps) * ((1 + eps) ^ 4 * kernel_rounding eps kernel nk * ((1 + eps) * / (1 - dw / weight)))) (mk * (kabs kernel / Rabs nu) * / Rabs weight)
                    (sa_rd S (Re conv * sa_rd S (1 / w'))) (value * / weight)).
      { apply (near_rd eps _ S HS). apply near_mul; [exact VN|]. apply (near_rd eps _ S HS). unfold Rdiv at 2. rewrite Rmult_1_l. exact RN. }
      refine (Rle_trans _ _ _ (proj1 (proj2 Q)) _). rewrite (Rabs_right weight) by lra. unfold quotient_error. right. unfold Rdiv at 3. f_equal. unfold Rdiv. ring.
    + intros Hi He ->. unfold weight, dw in DW. rewrite Hi, He in DW. assert (W0 : w' = 0) by (apply Rcomplements.Rabs_le_between in DW; lra).
      unfold reweight_fp. rewrite W0. destruct (Rlt_dec 0 0); [exfalso; lra|]. destruct (Req_EM_T 0 0); [reflexivity|contradiction].
Qed.
End Pixels.

(** *** C124 *)
(** The convolved image: what convolvend documents, up to the stated errors.  Without reweighting: the padded convolution. *)
Theorem C124_convolution :
  forall eps A S (array kernel : arr num) b v crop fftshift fft_pad psf_pad interpolate_nan ignore_edge_zeros min_wt nk nu N,
  pos_shape (shape array) -> pos_shape (shape kernel) -> length (shape array) = length (shape kernel) -> shape array <> [] ->
  b <> BExtend -> divided_by kernel nk nu -> nu <> 0 ->
  padded_shape b fft_pad psf_pad (shape array) (shape kernel) N ->
  accurate eps N A -> accurate_scalar eps (Z.to_nat (prodZ (shape kernel))) S -> divisible eps kernel nk ->
  let bg := match b with BWrap => 0 | _ => v end in
  exists out,
    convolvend_fp A S true true array kernel b (Fin v) crop false fftshift fft_pad psf_pad interpolate_nan ignore_edge_zeros min_wt nk = Ok (ConvReal out) /\
    shape out = (if crop then shape array else N) /\
    (interpolate_nan = false /\ ignore_edge_zeros = false \/ clearly_not_normalised eps kernel nk ->
     forall x, inb (shape out) x ->
      let X := if crop then addl x (offset N (shape array)) else x in
      let image := fun i => pix (get array i) in
      exists r, get out x = Fin r /\
        Rabs (r - conv_spec kernel (padded N (shape array) image bg) X / nu) <= value_error eps (mass N (shape array) image bg) kernel nk nu).
Proof.
  intros eps A S array kernel b v crop fs fp pp interp edge mw nk nu N Ha Hk Hl Hne Hb Hdiv Hnu HN HA HS Hdv bg.
  destruct (conv_main eps A S array kernel b v fp pp nk nu N Ha Hk Hl Hne Hb Hdiv Hnu HN HA HS Hdv crop fs interp edge mw) as [out [H1 [H2 H3]]].
  exists out. split; [exact H1|]. split; [exact H2|]. intros Hc x Hx. exact (proj1 (H3 x Hx) Hc).
Qed.
Print Assumptions C124_convolution.

(** With NaN interpolation or edge weights: the value divided by its weight, NaN when the weight is certainly too small. *)
Theorem C124_weighted :
  forall eps A S (array kernel : arr num) b v crop fftshift fft_pad psf_pad interpolate_nan ignore_edge_zeros min_wt nk nu N,
  pos_shape (shape array) -> pos_shape (shape kernel) -> length (shape array) = length (shape kernel) -> shape array <> [] ->
  b <> BExtend -> divided_by kernel nk nu -> nu <> 0 ->
  padded_shape b fft_pad psf_pad (shape array) (shape kernel) N ->
  accurate eps N A -> accurate_scalar eps (Z.to_nat (prodZ (shape kernel))) S -> divisible eps kernel nk ->
  interpolate_nan = true \/ ignore_edge_zeros = true -> clearly_normalised eps kernel nk -> ksum kernel <> 0 -> weights_doubt eps kernel nk < 1 ->
  let bg := match b with BWrap => 0 | _ => v end in
  exists out,
    convolvend_fp A S true true array kernel b (Fin v) crop false fftshift fft_pad psf_pad interpolate_nan ignore_edge_zeros min_wt nk = Ok (ConvReal out) /\
    shape out = (if crop then shape array else N) /\
    forall x, inb (shape out) x ->
      let X := if crop then addl x (offset N (shape array)) else x in
      let inside := inbb (shape array) (subl X (offset N (shape array))) in
      let image := fun i => pix (get array i) in
      let value := conv_spec kernel (padded N (shape array) image bg) X / nu in
      let outside_weight := if ignore_edge_zeros then 0 else 1 in
      let weights := valid_weight interpolate_nan array in
      let weight := if inside then Rmax 0 (conv_spec kernel (padded N (shape array) weights outside_weight) X / ksum kernel) else outside_weight in
      let dw := if inside then weight_error eps (mass N (shape array) weights outside_weight) kernel nk else 0 in
      (weight + dw < min_wt -> get out x = NaN) /\
      (min_wt <= weight - dw -> 0 < weight - dw ->
         exists r, get out x = Fin r /\ Rabs (r - value / weight) <= quotient_error eps (mass N (shape array) image bg) kernel nk nu weight dw) /\
      (inside = false -> ignore_edge_zeros = true -> min_wt = 0 -> get out x = Fin 0).
Proof.
  intros eps A S array kernel b v crop fs fp pp interp edge mw nk nu N Ha Hk Hl Hne Hb Hdiv Hnu HN HA HS Hdv Hie Hcn Hs Hw bg.
  destruct (conv_main eps A S array kernel b v fp pp nk nu N Ha Hk Hl Hne Hb Hdiv Hnu HN HA HS Hdv crop fs interp edge mw) as [out [H1 [H2 H3]]].
  exists out. split; [exact H1|]. split; [exact H2|]. intros x Hx. exact (proj2 (H3 x Hx) Hie Hcn Hs Hw).
Qed.
Print Assumptions C124_weighted.

(** return_fft: every frequency within the rounding error of a transform whose inverse is the padded convolution *)
Theorem C124_return_fft :
  forall eps A S (array kernel : arr num) b v fft_pad psf_pad interpolate_nan ignore_edge_zeros min_wt nk nu N,
  pos_shape (shape array) -> pos_shape (shape kernel) -> length (shape array) = length (shape kernel) -> shape array <> [] ->
  b <> BExtend -> divided_by kernel nk nu -> nu <> 0 ->
  padded_shape b fft_pad psf_pad (shape array) (shape kernel) N ->
  accurate eps N A -> accurate_scalar eps (Z.to_nat (prodZ (shape kernel))) S -> divisible eps kernel nk ->
  let bg := match b with BWrap => 0 | _ => v end in
  let image := fun i => pix (get array i) in
  let bound := mass N (shape array) image bg * (kabs kernel / Rabs nu) * ((1 + eps) ^ 3 * kernel_rounding eps kernel nk - 1) in
  let call := fun crop fftshift => convolvend_fp A S true true array kernel b (Fin v) crop true fftshift fft_pad psf_pad interpolate_nan ignore_edge_zeros min_wt nk in
  exists F G, shape F = N /\
    (forall x, inb N x -> idft N G x = RtoC (conv_spec kernel (padded N (shape array) image bg) x / nu)) /\
    (forall k, inb N k -> Cmod (Cminus (get F k) (G k)) <= bound) /\
    (forall crop, call crop false = Ok (ConvFFT F)) /\
    (exists H, call false true = Ok (ConvFFT H) /\ shape H = N /\
       forall i, inb N i -> get H i = get F (modl N (subl i (map (fun n => (n / 2)%Z) N)))) /\
    (exists H, call true true = Ok (ConvFFT H) /\ shape H = shape array /\
       forall i, inb (shape array) i -> get H i = get F (modl N (subl (addl i (offset N (shape array))) (map (fun n => (n / 2)%Z) N)))).
Proof.
  intros eps A S array kernel b v fp pp interp edge mw nk nu N Ha Hk Hl Hne Hb Hdiv Hnu HN HA HS Hdv bg image bound call.
  destruct (fft_main eps A S array kernel b v fp pp nk nu N Ha Hk Hl Hne Hb Hdiv Hnu HN HA HS Hdv interp edge mw) as [F [G [H1 [H2 [H3 H4]]]]].
  exists F, G. split; [exact H1|]. split; [exact H2|]. split; [exact H3|]. unfold call. split; [|split].
  - intros crop. apply H4.
  - eexists. split; [apply (H4 false true)|]. split; reflexivity.
  - eexists. split; [apply (H4 true true)|]. split; [reflexivity|]. intros i _. rewrite offset_starts. reflexivity.
Qed.
Print Assumptions C124_return_fft.

(** With exact operations this is the model of convolvend of C80 and C81. *)
Theorem C124_exact :
  forall has_fftw use_np nthreads np_complex_ok list_index_ok (array kernel : arr num) b fill crop return_fft fftshift fft_pad psf_pad
    interpolate_nan ignore_edge_zeros min_wt nk,
  match nk with NkFun f => forall k, Im (f k) = 0 | _ => True end ->
  convolvend_fp (exact_arith has_fftw nthreads use_np) exact_sarith np_complex_ok list_index_ok array kernel b fill crop return_fft fftshift
     fft_pad psf_pad interpolate_nan ignore_edge_zeros min_wt nk =
  convolvend has_fftw np_complex_ok list_index_ok (of_num array) (of_num kernel) b fill crop return_fft fftshift
     fft_pad psf_pad interpolate_nan ignore_edge_zeros min_wt nk use_np nthreads.
Proof.
  intros hf np nt nc lo array kernel b fill crop rf fs fp pp ia ie mw nk Hf.
  unfold convolvend_fp, convolvend. destruct nc; cbn [negb]; [|reflexivity].
  change (ndim (of_num array)) with (ndim array). change (ndim (of_num kernel)) with (ndim kernel). destruct (negb _); [reflexivity|].
  unfold exact_arith. destruct (get_ffts hf nt np) as [fftn ifftn]. cbn [fst snd ar_fft ar_ifft ar_mul].
  change (shape (of_num array)) with (shape array). change (shape (of_num kernel)) with (shape kernel).
  set (k0 := fun i => RtoC (pix (get kernel i))).
  assert (EK : nan_zeroed (of_num kernel) = Arr (shape kernel) k0).
  { unfold nan_zeroed, of_num, amap. cbn [shape get]. f_equal. apply functional_extensionality. intros i. apply (zeroed_num kernel i). }
  assert (EA : get (nan_zeroed (of_num array)) = fun i => RtoC (pix (get array i))) by (apply functional_extensionality; intros i; apply zeroed_num).
  rewrite EA, EK. cbn [shape get].
  assert (ES : forall f, sa_sum exact_sarith (values (shape kernel) f) = sumNR (shape kernel) f) by (intros; apply sum_values).
  assert (EC : forall f, sumNC (shape kernel) (fun i => RtoC (f i)) = RtoC (sumNR (shape kernel) f)) by (intros; apply sumNC_RtoC).
  assert (CE : forall x, Ceqb (RtoC x) (RtoC 0) = if Req_EM_T x 0 then true else false).
  { intros x. unfold Ceqb. cbn [RtoC Re Im fst snd]. destruct (Req_EM_T x 0); [destruct (Req_EM_T 0 0); [reflexivity|contradiction]|reflexivity]. }
  assert (CD : forall x y, Cdiv (RtoC x) (RtoC y) = RtoC (x * (1 / y))).
  { intros x y. unfold Cdiv, Cmult, Cinv, RtoC, Rdiv. cbn [fst snd]. destruct (Req_EM_T y 0) as [->|Hy].
    - assert (Z : / (0 ^ 2 + 0 ^ 2) = 0) by (replace (0 ^ 2 + 0 ^ 2) with 0 by ring; apply Rinv_0). f_equal; rewrite Z, ?Rinv_0; ring.
    - f_equal; field; lra. }
  assert (CD' : forall z y, cdiv_fp exact_sarith z y = Cdiv z (RtoC y)).
  { intros [u w] y. unfold cdiv_fp. cbn [exact_sarith sa_rd]. unfold Cdiv, Cmult, Cinv, RtoC, Rdiv, Re, Im. cbn [fst snd]. destruct (Req_EM_T y 0) as [->|Hy].
    - assert (Z : / (0 ^ 2 + 0 ^ 2) = 0) by (replace (0 ^ 2 + 0 ^ 2) with 0 by ring; apply Rinv_0). f_equal; rewrite Z, ?Rinv_0; ring.
    - f_equal; field; lra. }
  assert (RW : forall z w, reweight_fp exact_sarith mw z w = reweight mw z w).
  { intros z w. unfold reweight_fp, reweight. destruct (Rlt_dec w mw); [reflexivity|]. destruct (Req_EM_T w 0); [reflexivity|].
    unfold cdiv_fp. cbn [exact_sarith sa_rd Re fst]. f_equal. unfold Rdiv. ring. }
  (* the normalised kernel *)
  assert (NR : exists kern norm, normalise_fp exact_sarith kernel nk = Ok (kern, norm) /\
    (match nk with
     | NkFalse => (Some (Arr (shape kernel) k0), if Rlt_dec (Cmod (Cminus (sumNC (shape kernel) k0) (RtoC 1))) (/ 10 ^ 8) then true else false)
     | NkTrue => (if Ceqb (sumNC (shape kernel) k0) (RtoC 0) then None else Some (amap (fun z => Cdiv z (sumNC (shape kernel) k0)) (Arr (shape kernel) k0)), true)
     | NkFun f => (if Ceqb (f (Arr (shape kernel) k0)) (RtoC 0) then None else Some (amap (fun z => Cdiv z (f (Arr (shape kernel) k0))) (Arr (shape kernel) k0)), true)
     end) = (match kern with None => None | Some k => Some (Arr (shape kernel) (fun i => RtoC (k i))) end, norm)).
  { unfold normalise_fp. rewrite ES. cbn [exact_sarith sa_rd].
    assert (E0 : sumNC (shape kernel) k0 = RtoC (ksum kernel)) by apply EC.
    assert (AM : forall d, amap (fun z => Cdiv z (RtoC d)) (Arr (shape kernel) k0) = Arr (shape kernel) (fun i => RtoC (pix (get kernel i) * (1 / d)))).
    { intros d. unfold amap. cbn [shape get]. f_equal. apply functional_extensionality. intros i. apply CD. }
    destruct nk as [| |f].
    - eexists. eexists. split; [reflexivity|]. f_equal. rewrite E0, <- RtoC_minus, Cmod_R. reflexivity.
    - eexists. eexists. split; [reflexivity|]. f_equal. rewrite E0, CE, AM. change (sumNR (shape kernel) (fun i => nan0 (get kernel i))) with (ksum kernel). destruct (Req_EM_T (ksum kernel) 0); reflexivity.
    - fold k0. change (fun i => RtoC (nan0 (get kernel i))) with k0. assert (I0 := Hf (Arr (shape kernel) k0)). set (d := f (Arr (shape kernel) k0)) in *.
      destruct (Req_EM_T (Im d) 0) as [_|N0]; [|contradiction]. eexists. eexists. split; [reflexivity|]. f_equal.
      assert (ED : d = RtoC (Re d)) by (destruct d as [x y]; unfold RtoC, Re; cbn [fst]; f_equal; exact I0). rewrite ED, CE, AM. cbn [Re RtoC fst].
      destruct (Req_EM_T (Re d) 0); reflexivity. }
  destruct NR as [kern [norm [N1 N2]]]. rewrite N1, N2. clear N1 N2. cbn [bind].
  destruct (match b with BNone => _ | _ => _ end) as [[[fpad ppad] fl]|]; [|reflexivity]. cbn [bind].
  destruct (fpad && _); [reflexivity|]. destruct lo; cbn [negb]; [|reflexivity].
  set (N := newshape fpad ppad (shape array) (shape kernel)). destruct (check_fft N); [|reflexivity]. cbn [bind].
  destruct kern as [kern|]; [|reflexivity]. destruct (isnan fl && _); [reflexivity|]. cbn [shape get].
  change (fun i => RtoC (nan0 (get array i))) with (fun i => RtoC (pix (get array i))).
  destruct rf; [reflexivity|]. rewrite ES, EC, CE.
  set (kf := fftn (Arr N (ifftshiftN N (embed N (shape kernel) (fun i => RtoC (kern i)) (RtoC 0))))).
  set (wt := embed N (shape array) (fun i => if isnan (get array i) && ia then RtoC 0 else RtoC 1) (if ie then RtoC 0 else RtoC 1)).
  assert (EM : (fun i => if cisnan (get (of_num array) i) && ia then RtoC 0 else RtoC 1) = fun i => if isnan (get array i) && ia then RtoC 0 else RtoC 1).
  { apply functional_extensionality. intros i. unfold of_num, amap, cisnan. cbn [get fst snd isnan]. rewrite orb_false_r. reflexivity. }
  rewrite EM. fold wt.
  replace (fun k => cdiv_fp exact_sarith (Cmult (get (fftn (Arr N wt)) k) (get kf k)) (sumNR (shape kernel) kern))
    with (fun k => Cdiv (Cmult (get (fftn (Arr N wt)) k) (get kf k)) (RtoC (sumNR (shape kernel) kern))) by (apply functional_extensionality; intros k; rewrite CD'; reflexivity).
  destruct ((ia || ie) && norm); [|reflexivity].
  set (F := fun i => if _ && _ then NaN else reweight_fp _ _ _ _). set (F' := fun i => if _ && _ then NaN else reweight _ _ _).
  replace F with F'; [reflexivity|]. apply functional_extensionality. intros i. unfold F, F'. destruct (_ && _); [reflexivity|].
  symmetry. apply RW.
Qed.
Print Assumptions C124_exact.

(** Where no valid pixel reaches, nothing is promised: the documented answer for weight 0 and min_wt 0 is 0, but an inverse transform
    that errs by any positive eps leaves the quotient of two rounding errors, here 5. *)
Theorem C124_zero_weight_refuted :
  forall eps has_fftw use_np nthreads v, 0 < eps ->
  let array := mk2 1 2 (fun _ x => if (x =? 0)%Z then Fin 5 else NaN) in
  let kernel := mk2 1 1 (fun _ _ => Fin 1) in
  accurate eps [1; 2]%Z (bumped eps) /\ accurate_scalar eps 1 exact_sarith /\
  (exists out, convolvend has_fftw true true (of_num array) (of_num kernel) BWrap (Fin v) true false false false false true false 0 NkFalse use_np nthreads = Ok (ConvReal out) /\
     get out [0; 1]%Z = Fin 0) /\
  (exists out, convolvend_fp (bumped eps) exact_sarith true true array kernel BWrap (Fin v) true false false false false true false 0 NkFalse = Ok (ConvReal out) /\
     get out [0; 1]%Z = Fin 5).
Proof.
  intros eps hf np nt v He array kernel. assert (Hp : pos_shape [1; 2]%Z) by (apply pos2; lia).
  assert (P1 : pos_shape (shape array)) by exact Hp. assert (P2 : pos_shape (shape kernel)) by (apply pos2; lia).
  assert (NN : newshape false false (shape array) (shape kernel) = [1; 2]%Z) by reflexivity.
  split; [apply bumped_accurate; auto; lra|]. split.
  { split; [lra|]. split; [intros x; cbn [exact_sarith sa_rd]; replace (x - x) with 0 by ring; rewrite Rabs_R0; apply Rmult_le_pos; [lra|apply Rabs_pos]|].
    intros l _. cbn [exact_sarith sa_sum]. replace (fold_right Rplus 0 l - fold_right Rplus 0 l) with 0 by ring. rewrite Rabs_R0. apply Rmult_le_pos; [lra|]. induction l; cbn [map fold_right]; [lra|]. assert (Q := Rabs_pos a). lra. }
  assert (D1 : divided_by kernel NkFalse 1) by reflexivity.
  assert (K1 : sumNR (shape kernel) (fun k => pix (get kernel k)) = 1) by (cbv - [Rplus Rmult IZR]; ring).
  assert (V1 : forall f g x, (0 <= x < 2)%Z -> conv_spec kernel (padded [1; 2]%Z (shape array) f g) [0; x]%Z = f [0; x]%Z).
  { intros f g x Hx. assert (E : (x = 0 \/ x = 1)%Z) by lia. destruct E as [-> | ->]; cbv - [Rplus Rmult IZR]; ring. }
  split.
  - destruct (C80_main hf array kernel BWrap v false false NkFalse 1 P1 P2 eq_refl ltac:(discriminate) ltac:(discriminate) D1 R1_neq_R0 true false true false 0 np nt) as [out [H1 [H2 H3]]].
    exists out. split; [exact H1|]. assert (I : inb (shape out) [0; 1]%Z) by (rewrite H2; cbn; auto with zarith). specialize (H3 _ I). cbv zeta in H3.
    change (newshape _ _ (shape array) (shape kernel)) with [1; 2]%Z in H3.
    change (addl [0; 1]%Z (offset [1; 2]%Z (shape array))) with [0; 1]%Z in H3.
    rewrite K1, !V1 in H3 by lia. change (inbb (shape array) (subl [0; 1]%Z (offset [1; 2]%Z (shape array)))) with true in H3. cbv iota in H3.
    destruct H3 as [_ [H3 _]]. specialize (H3 (or_introl eq_refl)).
    assert (CN : counts_as_normalised kernel NkFalse). { unfold counts_as_normalised. rewrite K1. replace (1 - 1) with 0 by ring. rewrite Rabs_R0. apply Rinv_0_lt_compat, pow_lt. lra. }
    specialize (H3 CN (or_introl R1_neq_R0)). change (valid_weight true array [0; 1]%Z) with 0 in H3. 
    replace (Rmax 0 (0 / 1)) with 0 in H3 by (unfold Rmax; destruct (Rle_dec _ _); lra). destruct H3 as [_ [H3 _]]. apply H3; lra.
  - assert (NF : exists y, normalise_fp exact_sarith kernel NkFalse = Ok (Some (fun i => nan0 (get kernel i)), y) /\ y = true).
    { eexists. split; [reflexivity|]. cbn [exact_sarith sa_rd]. change (sa_sum exact_sarith) with (fold_right Rplus 0). rewrite sum_values. change nan0 with pix. rewrite K1.
      replace (1 - 1) with 0 by ring. rewrite Rabs_R0. destruct (Rlt_dec _ _) as [_|L]; [reflexivity|]. exfalso. apply L. apply Rinv_0_lt_compat, pow_lt. lra. }
    destruct NF as [y [NF ->]].
    eexists. split; [rewrite (fp_unfold (bumped eps) exact_sarith array kernel BWrap v false false NkFalse true false false true false 0 (fun i => nan0 (get kernel i)) true); [reflexivity|repeat split; auto|discriminate|discriminate|exact NF]|].
    change (newshape _ _ (shape array) (shape kernel)) with [1; 2]%Z.
    set (kf := dft [1; 2]%Z (ifftshiftN [1; 2]%Z (embed [1; 2]%Z (shape kernel) (fun i => RtoC (pix (get kernel i) / 1)) (RtoC 0)))).
    set (P := fun f : list Z -> R => fun k => Cmult (dft [1; 2]%Z (embed [1; 2]%Z (shape array) (fun i => RtoC (f i)) (RtoC 0)) k) (kf k)).
    assert (EV : forall f x, (0 <= x < 2)%Z -> idft [1; 2]%Z (P f) [0; x]%Z = RtoC (f [0; x]%Z)).
    { intros f x Hx. assert (I : inb [1; 2]%Z [0; x]%Z) by (cbn; lia).
      assert (Q := exact_conv array kernel BWrap 0 false false NkFalse 1 P1 P2 eq_refl D1 R1_neq_R0 f 0 [0; x]%Z I).
      refine (eq_trans Q _). change (newshape _ _ (shape array) (shape kernel)) with [1; 2]%Z. rewrite V1 by lia. f_equal. field. }
    set (image := fun i => pix (get array i)). set (valid := valid_weight true array).
    assert (PE : forall k, P image k = Cmult (P valid k) (RtoC 5)).
    { intros k. unfold P. replace (Cmult (Cmult (dft [1; 2]%Z (embed [1; 2]%Z (shape array) (fun i => RtoC (valid i)) (RtoC 0)) k) (kf k)) (RtoC 5))
        with (Cmult (Cmult (dft [1; 2]%Z (embed [1; 2]%Z (shape array) (fun i => RtoC (valid i)) (RtoC 0)) k) (RtoC 5)) (kf k)) by ring. f_equal.
      unfold dft. rewrite <- sumNC_scal_r. apply sumNC_ext. intros i Hi. apply inb2 in Hi. destruct Hi as [a [c [-> [Ha Hc]]]]. assert (a = 0%Z) by lia. subst a.
      assert (E : (c = 0 \/ c = 1)%Z) by lia. destruct E as [-> | ->].
      - change (embed [1; 2]%Z (shape array) (fun i => RtoC (image i)) (RtoC 0) [0; 0]%Z) with (RtoC 5).
        change (embed [1; 2]%Z (shape array) (fun i => RtoC (valid i)) (RtoC 0) [0; 0]%Z) with (RtoC 1). ring.
      - change (embed [1; 2]%Z (shape array) (fun i => RtoC (image i)) (RtoC 0) [0; 1]%Z) with (RtoC 0).
        change (embed [1; 2]%Z (shape array) (fun i => RtoC (valid i)) (RtoC 0) [0; 1]%Z) with (RtoC 0). ring. }
    assert (KE : (fun i => RtoC (nan0 (get kernel i))) = fun i => RtoC (pix (get kernel i) / 1)).
    { apply functional_extensionality. intros i. f_equal. unfold Rdiv. rewrite Rinv_1, Rmult_1_r. reflexivity. }
    set (B := eps * (l1 [1; 2]%Z (P valid) / IZR (prodZ [1; 2]%Z))).
    assert (LE : l1 [1; 2]%Z (P image) = 5 * l1 [1; 2]%Z (P valid)).
    { unfold P_rounding.l1. rewrite <- sumNR_scal. apply sumNR_ext. intros k _. rewrite PE, Cmod_mult, Cmod_R, Rabs_right by lra. ring. }
    assert (BP : 0 < B).
    { unfold B. apply Rmult_lt_0_compat; auto. assert (Q := P_rounding.idft_le [1; 2]%Z (P valid) [0; 0]%Z Hp). rewrite EV in Q by lia.
      change (valid [0; 0]%Z) with 1 in Q. rewrite Cmod_R, Rabs_R1 in Q. lra. }
    assert (KS : sa_sum exact_sarith (values (shape kernel) (fun i => nan0 (get kernel i))) = 1) by (change (sa_sum exact_sarith) with (fold_right Rplus 0); rewrite sum_values; exact K1).
    unfold fp_result. cbv zeta. cbn [get crop_to orb andb]. unfold crop_to. cbn [get]. change (addl [0; 1]%Z (starts [1; 2]%Z (shape array))) with [0; 1]%Z.
    rewrite KS, KE. change (inbb (shape array) (subl [0; 1]%Z (starts [1; 2]%Z (shape array)))) with true. cbv iota.
    destruct (Req_EM_T 1 0) as [E|_]; [lra|]. cbn [andb].
    set (W := embed [1; 2]%Z (shape array) (fun i => if isnan (get array i) && true then RtoC 0 else RtoC 1) (RtoC 1)).
    assert (WE : forall i, inb [1; 2]%Z i -> W i = embed [1; 2]%Z (shape array) (fun i => RtoC (valid i)) (RtoC 0) i).
    { intros i Hi. apply inb2 in Hi. destruct Hi as [a [c [-> [Ha Hc]]]]. assert (a = 0%Z) by lia. subst a. assert (E : (c = 0 \/ c = 1)%Z) by lia. destruct E as [-> | ->]; reflexivity. }
    cbn [bumped ar_fft ar_ifft ar_mul np_fftn shape get].
    destruct (list_eq_dec Z.eq_dec [0; 1]%Z [0; 1]%Z) as [_|Q]; [|congruence].
    fold kf. change (fun k => Cmult (dft [1; 2]%Z (embed [1; 2]%Z (shape array) (fun i => RtoC (pix (get array i))) (RtoC 0)) k) (kf k)) with (P image).
    assert (CE : (fun k => cdiv_fp exact_sarith (Cmult (dft [1; 2]%Z W k) (kf k)) 1) = P valid).
    { apply functional_extensionality. intros k. unfold P, cdiv_fp. cbn [exact_sarith sa_rd]. rewrite (dft_ext [1; 2]%Z W (embed [1; 2]%Z (shape array) (fun i => RtoC (valid i)) (RtoC 0)) k WE).
      unfold Rdiv. rewrite Rinv_1, !Rmult_1_r. destruct (Cmult _ _) as [x y]. reflexivity. }
    rewrite CE, !EV, LE by lia. change (image [0; 1]%Z) with 0. change (valid [0; 1]%Z) with 0.
    replace (eps * (5 * l1 [1; 2]%Z (P valid) / IZR (prodZ [1; 2]%Z))) with (5 * B) by (unfold B, Rdiv; ring). fold B.
    rewrite <- !RtoC_plus. cbn [Re RtoC fst]. rewrite !Rplus_0_l, Rmax_right by lra. unfold reweight_fp.
    destruct (Rlt_dec B 0) as [L|_]; [lra|]. destruct (Req_EM_T B 0) as [L|_]; [lra|]. f_equal. unfold cdiv_fp. cbn [exact_sarith sa_rd Re RtoC fst]. field. lra.
Qed.
Print Assumptions C124_zero_weight_refuted.

(** the hypotheses of C124 hold for the image [1,1,1,1] smoothed by a box of three pixels with edges ignored: at the first pixel the exact weight is 2/3,
    so the answer is promised for min_wt = 1/2 and NaN for min_wt = 9/10 *)
Example C124_nonvacuous : let a := mk1 4 (fun _ => Fin 1) in let k := mk1 3 (fun _ => Fin 1) in let eps := / 1000 in
  accurate eps [7]%Z (bumped eps) /\ accurate_scalar eps (Z.to_nat (prodZ (shape k))) exact_sarith /\
  divided_by k NkTrue 3 /\ divisible eps k NkTrue /\ clearly_normalised eps k NkTrue /\ weights_doubt eps k NkTrue < 1 /\
  padded_shape BFill false false (shape a) (shape k) [7]%Z /\
  let dw := weight_error eps (mass [7]%Z [4]%Z (valid_weight true a) 0) k NkTrue in
  conv_spec k (padded [7]%Z [4]%Z (valid_weight true a) 0) [1]%Z / ksum k = 2 / 3 /\ 1 / 2 <= 2 / 3 - dw /\ 2 / 3 + dw < 9 / 10.
Proof.
  cbv zeta. set (a := mk1 4 (fun _ => Fin 1)). set (k := mk1 3 (fun _ => Fin 1)).
  assert (KS : ksum k = 3) by (cbv - [Rplus Rmult IZR]; ring).
  assert (KA : kabs k = 3) by (cbv - [Rplus Rmult IZR Rabs]; rewrite !Rabs_R1; ring).
  assert (CO : condition k = 1) by (unfold condition; rewrite KS, KA, Rabs_right by lra; field).
  assert (MA : mass [7]%Z [4]%Z (valid_weight true a) 0 = 4) by (cbv - [Rplus Rmult IZR Rabs]; rewrite ?Rabs_R1, ?Rabs_R0; ring).
  assert (KR : kernel_rounding (/ 1000) k NkTrue = (1 + / 1000) ^ 2 / (1 - / 1000)) by (unfold kernel_rounding; rewrite CO, Rmult_1_r; reflexivity).
  assert (WD : weights_doubt (/ 1000) k NkTrue = (1 + / 1000) * ((1 + / 1000) ^ 2 / (1 - / 1000)) - 1) by (unfold weights_doubt; rewrite CO, KR; ring).
  split; [apply bumped_accurate; [lra|repeat constructor]|]. split.
  { split; [lra|]. split; [intros x; cbn [exact_sarith sa_rd]; replace (x - x) with 0 by ring; rewrite Rabs_R0; apply Rmult_le_pos; [lra|apply Rabs_pos]|].
    intros l _. cbn [exact_sarith sa_sum]. replace (fold_right Rplus 0 l - fold_right Rplus 0 l) with 0 by ring. rewrite Rabs_R0. apply Rmult_le_pos; [lra|].
    induction l as [|y l IH]; cbn [map fold_right]; [lra|]. assert (Q := Rabs_pos y). lra. }
  split; [exact (eq_sym KS)|]. split; [unfold divisible; rewrite CO; lra|]. split; [exact I|]. rewrite WD. split; [lra|]. split; [reflexivity|].
  split; [rewrite KS; cbv - [Rplus Rmult IZR Rinv]; field|]. unfold weight_error. rewrite MA, CO, KR, WD. lra.
Qed.
